# Formal model of configor: design

## Approach

The code under `/repo/include/configor` is transcribed, function by function,
into total computable Gallina functions (`rocq/theories`).  Each model
definition cites the file and lines it transcribes and says where it
simplifies.  C++ results are an `outcome`: a normal return, a thrown exception
(with its class and its text), an assertion failure, or
undefined behaviour.  The last constructor, `OutOfFuel`, is an artefact of the
model (Coq functions must terminate); theorems exclude it explicitly, and for
finite inputs it is proved impossible.

Specifications are written separately from the model (`Spec*.v`), without
using the model's helper functions: well-formed UTF-8 from RFC 3629, a
declarative grammar of the accepted dialect, the RFC 8259 grammar, a canonical
renderer, finite maps, lists, and so on.  Property theorems live in
`Prop*.v`: only statements, `exact`, `Print Assumptions`, and examples.

When a property that a user would expect is false of the code, the file states
the part that holds (with the exact boundary where possible) and a
`..._refuted` theorem with a concrete witness.

## Layers

| file | models |
|---|---|
| Base, Stream | outcomes; stream buffers, `istream` get/peek and state bits, `ostream` put/write |
| Encoding | details/encoding.hpp: surrogates, ignore/utf8/utf16/utf32 encode and decode |
| Value, ValueOps, Compare | details/value.hpp: the value tree, operations, comparison operators |
| Message | the texts of the error messages: token and type names, hex codes |
| Token, Parser | details/token.hpp, details/parser.hpp, the parser half of json.hpp |
| FloatFmt, Serializer | details/serializer.hpp, the serializer half of json.hpp, iostream number formatting |
| Iterator | details/iterator.hpp |
| IterUse | details/iterator.hpp with value.hpp: iterators kept while their value changes |
| Content | details/value.hpp:472-562, 634-652, 681-707: pointers and references to the content of a value (get_ptr, get<T&>) kept while values change |
| Cpp, Convert | details/conversion.hpp: to_value/from_value over a universe of C++ types, CONFIGOR_BIND; get |
| ConvUser | classes with hand-written to_value/from_value; containers, pointers and bound structs of them |
| Heap | ownership discipline of basic_value: allocation and release of the data blocks |
| Refs | references to values kept across statements, in the memory of Heap |
| Alloc | the same when allocations may throw std::bad_alloc |
| ParseHeap | the parser building its value in the memory of Alloc |
| ConvHeap | to_value and the converting constructor in the memory of Alloc |
| ConvMem | from_value and get when requests for memory may be refused |
| DumpMem | dump when requests for memory may be refused |
| Read | the input stream buffers with xsgetn; get, peek, read, clear |
| Wrapper | details/wrapper.hpp stream operators |
| StreamUse | the same with state bits and exceptions() masks, and loops over them |
| Reuse | parser and serializer objects and streams used for several calls |
| Options | the options of parse and dump, the default encoding |
| NumType, NumDump | parser and serializer for other integer types, and (parser) for any arithmetic of the number types |
| NumSingle | the same with float as float_type |
| Cost | parser, serializer and comparisons with counts of nested calls and copies |
| Target | the serializer on an arbitrary, possibly refusing, stream buffer; basic_oadapterstream |

## Trusted base

* The Coq 8.16.1 kernel (the development is also re-checked with `coqchk`).
* The axioms printed by `Print Assumptions` under each property theorem; every
  one of them prints "Closed under the global context", i.e. no axioms.
* That the model says what the C++ says.  This is by reading; every definition
  carries its source lines.
* The behaviour of the C++ standard library that the model writes down:
  istream get/peek state bits, ostream put/write, std::map as a sorted
  association list, std::vector as a list, printf number formatting, IEEE
  binary64 arithmetic in round-to-nearest-even without fused multiply-add or
  excess precision.

Not modelled: memory exhaustion outside the commands of Alloc, the parser, the serializer and the conversions
from and to C++ objects, the stack overflow that the unlimited recursion counted in Cost leads to,
other effects of hand-written conversions than on their arguments, sets of such classes, classes whose constructors,
assignments or comparisons throw (exceptions of their conversions are those of ConvUser; an input adapter that throws is the
buffer IThr of Stream; an output adapter that throws makes its stream bad, as one that refuses does, Target), locales other than the classic numeric one,
custom template arguments other than character kind, encoding, the object container of a parse (C57) and the number
types of parse and dump (C60; elsewhere the integer type is int64_t, the float type double), compile-time overload selection,
except where it shows: array_type and object_type have conversions of their own (`TyRaw`), because is_value_getable
is false for basic_value; pointers to and other containers of basic_value are not `getable`.

## Properties

Numbering follows properties.jsonl.

* C01-C05 encodings: model of the encoders and decoders on streams; theorems
  by arithmetic on the bit fields for all code points, lists by induction;
  RFC 3629 well-formedness as an independent table of byte ranges.
* C06 termination: a measure (units left) decreases at each loop iteration;
  `OutOfFuel` is unreachable with any budget of at least 2n+1; outcome classification by
  induction on the budget.
* C07 grammar: an abstraction predicate relates any stream to the list of code
  points it decodes to and how it ends; a big-step relation "text l starts with
  value v and leaves l'" is the dialect; soundness and completeness by induction.
* C08-C15, C17 are consequences for particular tokens or rewritings, proved on
  the grammar or on the lexer; RFC 8259 is a second, separate grammar.
  The error bound of C09: RoundErr bounds one rounding over the rationals,
  Accuracy accumulates the bounds over digits and powers of ten.
* C16: outcome classification by induction; comparison of the two assert modes.
* C18, C19: the serializer's state machine equals a structural renderer.
* C20: the renderer's text is in the grammar, so completeness gives the round
  trip; C23 the same with the RFC grammar; C25 from C20 plus the sortedness
  invariant.  For arbitrary finite floats (Echo) the text of a float is shown to
  be an RFC number and the document denotes an `echo` of the value.
* C21, C22, C26, C27: invariants of the serializer state.
* C24: integral floats exactly; arithmetic of `spec_float`.  For the others,
  SpecReal states what C prescribes for %f, %e and %g over the rationals, and
  RealRound, RealText prove that the model's formatting is that.
* C28: a "prefix of the document" relation on partial values, by induction on
  the budget.
* C29-C33: value operations refine finite maps and lists; invariants over
  arbitrary operation sequences.
* C34, C35: induction on value trees; refutations by computation.
* C36, C37: heap model with explicit blocks (Heap); the specification runs the
  same commands on a store of trees (SpecHeap).  Trees annotated with block
  numbers (HeapGhost) link the two; the invariant is "live blocks = blocks of
  the annotated trees, each once" (HeapOps), and each command refines the step
  on trees (HeapProofs).  `sane` lists what a program must not do; a theorem
  shows every sane command is covered.
* C38-C40: iterator positions as a model of the three iterator kinds.
* C41-C44: universe of C++ types (Cpp); to_value, from_value and get by
  recursion on the type (Convert).  SpecConv says relationally which object a
  value is read as (`reads`), when reading fails, with which exception class and
  what is left (`breaks`), and which value an object becomes (`image`); the model
  agrees with them in both directions (ConvRead, ConvSafe), `std::set` sorting is
  treated in ConvOrder, floats in ConvFloat.  SpecCpp states what C++ means by T{}, ==, < and std::set
  apart from the functions of Cpp, and CppFacts shows that those agree.  `telling` is the exact condition for
  a round trip.  `nan_in_set` (a NaN element reaching a std::set, whose ordering
  it breaks) is excluded and shown to be undefined.
* C45: the stream abstraction predicate of C07 holds of strings, adapters and
  files over the same text (StreamProofs); for an adapter that signals the end by
  NUL a simulation (NulProofs) shows that the parse either has the string's outcome
  or never ends, and says which, by the text (`blank_open`, SpecStream).
* C46: the wrapper operators (Wrapper) on models of ostream and istream state;
  the characters that count as blanks for the sentry are a parameter.  Reach
  relates the parser's stream before and after a parse, which gives what is left
  unread (WrapProofs); the round trips put C20 and C42 to use (WrapMore,
  WrapTyped).
* C47-C48: Alloc runs the commands of Heap under a plan saying which allocations
  are refused; lost storage is a block owned by no variable, so the invariant of
  C37 (generalised to a list of such blocks) carries over.  AllocRules has rules
  for "does this or runs out of memory", AllocProofs goes through the commands,
  AllocMain gives the statements in terms of SpecAlloc.
* C49: Target repeats the serializer with an abstract stream buffer in place of
  the string; TargetProofs relates the two step by step for any relation between
  their streams (Section Sim); TargetMain instantiates it: the buffer has been
  given what the string has (any target), both go on alike (quiet strings), the
  buffer's stream has failed (loud strings).
* C50: SpecRead says what a sequence of get, peek, read and clear on a text gives;
  ReadProofs shows that a buffer in a state standing for position p answers that way
  (Section Sim, one state relation per buffer), and where read departs from it.
* C51: ParseHeap is the parser of Parser with the memory of Alloc in place of the
  value tree; the two scan alike, so ParseHeapProofs compares them by induction on
  the budget, for elements in place and members in a temporary.  What can be left
  is said of documents (SpecParseHeap: members in order, with repeated keys):
  `short` has clipped strings, `cut` is a beginning.  ParseHeapText treats the
  string scanner, whose ostream swallows std::bad_alloc.  The document is that of the
  text (SpecParseDoc, ParseDoc): the one that explains the result for every container
  of C57, which for an accepted text is the one of the grammar; for a rejected text it
  is defined by the parser alone, as what was read before the error.
* C52: SpecMessage spells out the wording and says, on top of the grammar and the
  token boundaries of SpecGap, what is said about a text and why (`complaint`,
  `objection`).  MessageLex, MessageNum, MessageStr, MessageScan go through the
  scanners in both directions; MessageProofs follows the parser by induction on
  the budget one way and on the boundary the other way.
* C53: SpecErrors says what dump and get<T>() complain about, with the wording of
  SpecConv, SpecValue and SpecIter, whose exceptions are exact texts too;
  ErrorProofs shows that the model throws these, using the characterisations of
  failing dumps (DumpFail) and failing reads (ConvThm).
* C54, C55: Cost repeats the recursive functions with counts; CostProofs shows that
  the results do not change.  SpecCost adds the two counts to the grammar, so that
  CostParse can say exactly what a document costs; CostBound bounds every text,
  rejected ones too, by induction on the budget.  CostCompare counts the calls of ==
  and <; CostFirst shows that they stop at the first difference.  A count is one per call of the functions listed in Cost; that a call takes
  a stack frame is a reading of the source, and a compiler may turn the last call of
  skip_comments into a jump.
* C56: the buffer IThr throws from some call on; istream catches that, sets badbit and
  not eofbit, which every decoder takes for an undecodable character.  ThrowProofs shows
  that such a source feeds the code points of its text and then a bad end; CutProofs
  compares the list machine on a clean and on a bad end step by step; ThrowFacts puts
  the two together with the grammar (C07) and the messages (C52).
* C57: Container is the parser with the container's emplace as a parameter.  One induction
  on the budget shows that one document explains the results for all containers; another,
  on the grammar of documents (SpecContainer), that it is the document of the text.
  ContainerRound follows the dumped text to the document of the value.  A container whose
  iteration order depends on more than its members (unordered_map) is not of this form.
* C58: Reuse runs Parser and Serializer from an arbitrary state of the object instead of the
  initial one.  ReuseParse repeats the simulation by the list machine from there (the state of
  a parser after an exception is not modelled, as no caller can know how far it read).
  ReuseDump follows the depth and the indentation buffer through successful and failing
  writes: the depth a failing call leaves is that of the leaf it failed at, and the buffer
  stays long enough for it.  ReuseMain adds the texts, by DumpProofs, and the round trip.
* C59: Options folds the option lists over the default settings.  OptionsProofs shows once, for
  any kind of option, that a fold of assignments is decided by the last one, and instantiates it.
  The round trip is C20 for the two configurations that come out.
* C60: NumType is Parser with the arithmetic as a parameter; NumInst shows that int64_t and
  double give Parser.  The grammar of SpecNumType keeps numbers as literals; NumLex and
  NumParse show soundness and completeness for any arithmetic, with the meaning of the literals
  computed afterwards.  NumParam relates two runs with different arithmetic, which NumIty
  instantiates with wrapping against unbounded integers.  NumRound follows ContainerRound for
  the texts of integers.  NumDumpText is DumpProofs and DumpFacts with the text of integers
  as a parameter (SpecNumDump).  NumSingle is float as float_type; NumSingleProofs repeats
  FloatFacts for any binary format and NumRound for float.  long double is covered by the
  theorems for any arithmetic, on the parsing side only.
* C61: ConvHeap follows to_value on the heap of Alloc, with the order of the operands of = in
  c[i] = y as a parameter.  ConvHeapProofs goes by induction on the type: a run either leaves
  the cell holding what Convert computes, or throws with the cell holding some smaller tree
  and at most as many blocks lost as the value needs (SpecConvHeap).  Which blocks are lost:
  a constructor that throws does not run the destructor, so what the cell owned stays.
* C62: ConvMem is from_value of Convert with a function of paths and numbers that says which
  requests are refused; the path names the place in the recursion, so every pattern is some
  function.  SpecConvMem lists what may be read and where reading may stop, without such
  functions.  ConvMemStep gives the equations for each container (scans of numbered elements),
  ConvMemSound shows by induction on the type that a run is one the specification allows,
  ConvMemReach that no run is undefined, that quiet runs are those of Convert, and that other
  exceptions are those of Convert; ConvMemMain builds a pattern for each derivation of the
  specification.  The order of evaluation of key and value stays a parameter (e_key1).
* C63: DumpMem is the serializer of Target with the requests it makes for itself numbered in the
  order they are made (locale, indentation, pieces of a message); a predicate on numbers says
  which are refused, and a string that cannot grow is a target of C49.  DumpMemProofs compares a
  run without refusals with Target; DumpMemEnds compares any run with the dump to a string, where
  the target has a prefix of the text; DumpMemWhen follows depth and length of the indentation to
  find which runs make no request.
* C64: StreamUse has the sentries with rdstate() and exceptions(); parser and serializer work on
  streams of their own on the same buffer, so that only the sentries touch the caller's bits.
  StreamUseProofs shows what one extraction leaves of the text (by the parser states reached, as
  for C46); loops follow by induction on the documents (C58) in one direction and on the rounds in
  the other.  A unit that a wide stream takes for the end of the input ends the skipping of blanks
  here; Wrapper passes it to the parser, which then reports the end of the input.
* C65: a C++ type is given by what the library can do with its objects (the record `conv` of
  ConvUser): arbitrary functions for a class, to_val/from_val for the types of Convert, and one
  function on such records for each container.  SpecConvUser says what a loop over elements does
  (`runs`), when conversions only return or throw (`behaves`) and when objects are got back
  (`kept`); the theorems are preservation by each container, so that types nested to any depth
  follow by composition.  Whether c[i] is evaluated before or after the element it is assigned is
  a parameter.
* C66: Refs adds to the commands of Heap places that start at a reference bound earlier, and
  commands that bind one (`auto& r = ...at(k)`, `auto& r = ...[k]`).  SpecRefs gives, on trees, the
  place where the referenced object is after a command (`follows`); the proof carries the
  ownership invariant of C37 with a walk from a variable to the object (RefsProofs `fwalk`,
  `kept`, `freed`).  As in Heap, all references to the elements of an array themselves (not to
  what is inside them) are lost when the number of its elements changes; C++ keeps those before an
  erased element, and those of a vector that grows within its capacity.  A reference to an
  element erased is lost for good: nothing is said of one whose key is inserted again.
* C67: IterUse has one value whose vector or map carries a number (the buffer, the map, each
  node), iterators that remember these numbers, the statements that change the value
  (`ucmd`) and four loops that change the value they walk over.  SpecIterUse says where an
  iterator stands (`stands`), which statements spare a spot (`stays`) and what the statements
  are without iterators (`plain`).  Simplifications: an iterator of a vector counts as lost
  whenever the number of elements changes (C++ keeps those before an erased element and those of
  a vector that grows within its capacity; an index past the end makes v[i] = x grow the
  vector); nodes of std::map are told apart by key and number; a moved-from vector or map is
  not followed to its new owner; iterators of two different values are only covered by Iterator
  (C38 to C40), over a value that stays as it is.  IterUseMore adds erase of a range, offsets, order
  and reverse iterators (functions of their own, not commands of the programs); erase of a range
  of a vector counts as a change even if the range is empty.
* C68: Content has variables whose content is in the variable itself (null, boolean, integer,
  float) or in a block of the heap (string, array, object), and pointers to either.  SpecContent
  says which variable has the content of x after a command (`goes`) and what the variables hold
  without blocks and pointers (`effect`).  Simplifications: all variables exist throughout; what
  is inside a block is a plain value, so pointers to the content of an element are not followed
  (C66 has references to elements); allocation does not fail; block numbers are not used again,
  so nothing is said of an address that is; reading or storing at another type than that of the
  content is undefined, as for the members of a union and objects of another type.
