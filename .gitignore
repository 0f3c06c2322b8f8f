*.vo
*.vos
*.vok
*.glob
*.aux
.*.aux
*.cache
.*.cache
Makefile
Makefile.conf
.Makefile.d
.CoqMakefile.d
