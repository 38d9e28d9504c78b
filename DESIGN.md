# Formal model of tjmareng/protocon in Rocq (Coq 8.16.1)

Protocon checks and synthesises self-stabilising network protocols. The model
lives in `rocq/theories`. For each modelled part X of the code there are

* `XModel.v`  – total computable Gallina functions, one per C++ function, each
  citing the file and lines of `/repo/src` it models and listing simplifications;
* `XSpec.v`   – the independent vocabulary the theorems are stated in (rings,
  executions, paths, sets), free of the model's helpers;
* `XProofs.v` – lemmas;
* `XProps.v`  – the theorems (`Proof. exact lemma. Qed.`), each followed by
  `Print Assumptions` and an `Example` showing its hypotheses are met.

## Plan per property (written before the proofs)

| id | model | method |
|----|-------|--------|
| C01 | `uniact.hh` id arithmetic over `nat` | div/mod lemmas |
| C02, C03 | `unifile.cc` conversions over lists | list induction, loop invariants |
| C04, C05 | `unifile.cc` base64 codec, bit table = list of bool | round trip by induction over bits; monotonicity of the size search |
| C06 | `livelock.cc` tile search, fuelled recursion on the limit | construct a doubly periodic grid from the block, then a ring and an infinite schedule with a token argument |
| C07 | same | enabled-process count is non-increasing; an infinite run yields an infinite grid; the minimal value of the grid seeds a triangle of every size |
| C08 | same | induction on the limit |
| C09 | guided search | same grid argument as C06 |
| C10 | loops over masks | forall over the three nested ranges |
| C11 | explicit-stack DFS with fuel | invariant over (stack, visited) |
| C12 | tile continuation digraph | grid diagonals give an infinite path, pigeonhole |
| C13 | flat array + node records | refinement to `list (list nat)` |
| C14, C15 | odometer loop of `canonical_ck` | C14 invariant; C15 expected to be refuted for M=3 |
| C16–C18 | `synthesize.cc` generator | tau-tree rank argument; closed-walk argument; C18 expected refuted in general, conditional version proved |
| C19–C26 | `conflictfamily.cc` over sorted duplicate-free lists | invariants over operation lists |
| C27, C28 | `deadfree.cc` BFS | path reconstruction; C28 expected refuted |
| C29–C36 | `pfmla.cc`, `stabilization.cc` over boolean predicates on a finite state universe | fixpoint induction, pigeonhole |
| C37, C38 | `pfmla.c` phase/ctx dispatch | case analysis; C38 expected refuted for a corner |
| C39, C40 | `xnpc.cc`, `xnsys.cc` indices | mixed-radix induction |
| C41–C44 | `synthesis.cc`, `search.cc` | invariants over loops |
| C45–C50 | `udp-impl/protocol.c` over records of `N` words | case analysis, bit-vector lemmas |

| C51–C54 | `stabilization.cc` with synchronous layers, randomisation, shadow and puppet variables | fixpoints; attractors; simulation |
| C55 | completeness of the livelock block search | odometer enumeration covers every block; an infinite execution of a self-disabling protocol gives a doubly periodic pattern, because steps of different processes commute and levels are counted per process |
| C56–C59 | `pfmla.c`, `pfmla-glu.c`, `xfmlae.hh` over valuations of finite-domain variables | every operation against its meaning |
| C60, C61 | network of `protocol.c` processes with lossy, duplicating, reordering channels | ghost history invariant; C61 refuted by a schedule |
| C62, C63 | `search.cc`, `synthesis.cc`, `find_livelock_actions` | invariant relating every solution to every search node; the cycle walk |
| C64 | `xnsys.cc` transition formulas of actions over the `pfmla.c` model | formulas against moves of a process, folds over the class |
| C65 | `candidate_actions` | every test of the cascade against its meaning on states |
| C66 | `XnPc::actions`, `PcSymm::actions` | each round removes what it found; the rounds end |
| C67 | `IntPFmla` | every index of the table over the joined variables is met in a state; merge of the sorted inverse maps |
| C68 | `ProtoconFile::eval` and lookups | induction on the expression, the index map equal to the indices in scope |
| C69 | `parse_action`, `add_action`, `forbid_action`, `permit_action` | invariant of the loop over the assignments; the formula of the strongly connected part equals the one of the reachability model |
| C70 | `Net::sync_xn`, `semisync_xn` | meaning of each conjunct; moves of processes with disjoint variables are combined one by one |
| C71 | the grammar of expressions and actions, `string_expression`, the accumulated texts | trees with a rank for each operator; a printed tree of the right rank is read back by each rule; everything read has the right rank |
| C72 | access declarations, `symmetric` blocks, their text, `vbl_name` | lets put in place of names; the pieces of a block cover consecutive positions; reading of the printed declarations by induction |
| C73 | the text of actions of a solution, the order they are written in, reading them one after the other | the text is that of a tree (C71), whose steps are those of the action (C69); what is not printed does not change; with C66 for the system read back |
| C74 | the cycle check and the reachability check for unidirectional rings, on formulas | rounds of turns as a relation; the sets settle because every cycle of rounds starts in the first set; a cycle of the ring can be followed in rounds because enabled processes never get more and steps of processes that are not neighbours commute; counterexamples evaluated on lists of states |
| C75 | the generator's search, with its stack of candidate sets | specification of one node and of the loop by induction on the fuel, with an invariant on the levels above (candidates only lose sets that contain a livelock); order of positions for the limit |
| C76 | as C75 | a livelock gives a doubly periodic pattern (commuting steps); its actions form an undecided protocol; the smallest renaming has one of the three first actions; three and four values by computing the search |
| C77 | the tables of `udp-ofile.cc`, the C functions as data with an interpreter | owners by invariants of the two claiming loops; channel lists by what each owner sends; the printed tests by what they return; put together to `well_formed` of UdpSpec |
| C78 | the code per kind of process of `udp-ofile.cc` | each printed clause removes one valuation, so the loops end; a run is the first matching clause; moves depend on the kind only |
| C79 | the driver of `search.cc`: threads as state machines with a lock, signals at any step | one induction over schedules (`run_holds`) for several invariants; every family in the system rejects no solution that contains no counted one |
| C80 | conflict minimisation of `search.cc` | the invariant of the search's learning step, per thread and merge |
| C81 | the reductions at the end of `main-mpi.cc`, the verdict loop of `search.cc` | minimum and maximum over a list |
| C82 | the option lists and `assign` of `interactive.cc`, characters included | induction on the number of states left; round trip of printed numbers and names |
| C83 | the command loop of `interactive.cc` | invariant over all command histories |
| C84 | `randomize_state` and `sstep` | induction on the variables and on the lines |
| C85 | `bdd_classify`, `tile_classify` over the formulas of C17 ff. | the chain formula means one step of all columns; cycles of it are strips and blocks |
| C86 | the two reductions from Wang tiles, id map included, and `check_constraints` | injective ids; the pattern of symbols is forced from one cell on; painting a tiling gives the converse |
| C87 | the writers of `unifile.cc`, `xlate.cc`, and the modelled readers applied to their text | induction on the actions, with C69 for one action of a ring of n processes; tables with the same actions are equal |
| C88 | `Net::unroll_action`, `OPutPromelaModel`, and a reading of the result as SPIN reads it | the unrolled actions are the cell moves of C77; printed references are evaluated as C text; one option is one cell move |
| C89 | `PickActionMRV`, `pick_action_candidates` | every level of the search is ranked (C41), so the first rank with candidates holds the states with the fewest choices; weights are counted against small specifications; two ways to pick that agree on such levels give the same search |
| C90 | the statements of a protocol file | the file is read statement by statement; the specification walks over the same text with a scope that grows by predicates; induction over the statements with the invariant that every formula kept means what the scope says |
| C91 | `main` and `ReadUniRing` of the ring synthesis program | the loop over the pairs as for C57, the checks by C90, then C16–C18 and C87 put together |
| C92 | constants, variables, heads of process definitions, the whole file | the order of the variables: the cells of one array, taken out, are 0, 1, ..; expressions by C68, accesses by C72, the rest by induction over the entries |
| C93 | the list of conflicts, the file with such lists, the conflicts handed to the search | the chosen value is that of some step, so inclusion in the equality is uniqueness; induction over the statements for the rest |
| C94 | the options of a command line that concern instances, as words already cut | induction over the constants: after each one the list has the choices among those so far, pairwise apart; induction over the line for what is heard |
| C95 | two readings of one file (HeadModel.v) and the comparison of their kinds | the array a name stands for, its role and the slots depend on the text only; so equal domains make equal kinds |
| C96 | lines of bits for actions, and the text for a line (reader of C71, meaning of C69) | a line matches exactly the values of its action; the text is the print of a tree that is true where the fields have a 1 |
| C97 | the checks of formulas over the identity relation and the invariant | evaluate the formulas: the identity relation lets random variables change, smoothing is a choice of values |
| C98 | rules of the grammar on lists of characters, ordered choice; the text that is written; the option | each rule gives only phrases; each phrase is read by its rule and by no earlier one |
| C99 | the maps from variables to writers and from processes to readers, and the lines | membership in the maps, then in the list of lines |
| C100 | one trial on top of the search of C44; the threads of `-test` as events on a shared state | the invariant of levels of C44; an invariant of the shared state over all sequences of events |
| C101 | tables of views as lists of booleans; rings as functions from positions to values | an invariant of the search; rings as closed walks; pigeonhole and the iterates of the image |
| C102 | maps of values as functions; the search as a recursion over the positions of the table with the list of printed sets | the shuffles give all one-to-one maps; an invariant of what was printed; induction on the table read as a number |
| C103 | the loops over values as searches of lists; printed terms as lists of comparisons with a meaning for each view | closed walks of lengths 2, 3 and 5 joined; what was printed followed through the loop; induction on the list of views with the cache |
| C104 | nodes and arrows as lists of pairs of values | all continuations of a view have the same first two values, so the inner loop prints at most one arrow; the next process of the ring gives the view that follows |

No property of the list is believed impossible to express. Network timing and
process scheduling of the OS are not modelled; probability is modelled only
qualitatively (which successors have positive probability: C52).

## Trusted base

* The kernel of Coq 8.16.1 (`coqc`), including `vm_compute` conversion, which a
  number of `Example`s and `_refuted` theorems use.
* **Axioms: none.** `Print Assumptions` stands beneath every theorem `Cxx_…` and
  prints *Closed under the global context* for each. (Some automatic listings
  mention `Coq.ssr.ssrunder.Under_rel.*`: these are fields of a module type in
  Coq's own `ssreflect` plugin library, loaded by `lia`'s dependencies; no theorem
  depends on them.)
* The faithfulness of the `*Model*.v` files to `/repo/src`. Every definition cites
  the lines it models. It was checked only by reading; the code was not run.
* The meaning of external components, modelled as mathematics:
  * `glu` decision diagrams (`pfmla-glu.c` calls): a formula is a boolean function
    over valuations (Fmla*) or over a finite list of states (Reach*, Stab*,
    Search*);
  * containers of the fx library (tables, sets, digraphs): lists; the digraph used
    by `deadfree.cc` and the tile search: adjacency lists; the project's own
    `adjlist.hh` is modelled and verified separately (C13);
  * `MpiDissem`: a lossless channel; UDP: a multiset of packets from which any
    packet may be delivered any number of times or never;
  * C integer types: `nat`/`N`/`Z` without overflow, except where wrap-around matters
    (sequence ids and the random generator of `protocol.c`, C46–C50, C60, are modelled modulo their
    width).
* Loops whose end is not structural carry a `fuel` argument. Either a theorem states
  that the fuel is always enough, or running out is a distinct outcome (`Stuck`,
  `None`, `Halted`) about which no theorem promises anything.

## What is modelled

| code | files of the model | claims |
|------|--------------------|--------|
| `uni/uniact.hh`, `uni/unifile.cc` 15–230 | Uni*, B64Proofs | C01–C05 |
| `uni/livelock.cc` | Livelock*, GridLivelock, LiveGrid, Tile* | C06–C12, C55 |
| `uni/adjlist.hh` | Adj* | C13 |
| `uni/canonical.cc` | Canon* | C14, C15 |
| `uni/synthesize.cc` 58–151 | Synth* | C16–C18 |
| `conflictfamily.cc/.hh` | Conflict* | C19–C26 |
| `deadfree.cc` 14–158 | Dead* | C27, C28 |
| `pfmla.cc` fixpoints 15–127, 464–487 | Reach* | C29–C34 |
| `stabilization.cc` 11–450, `xfmlae.cc` 100–155 | Reach*, Stab* | C34–C36, C51–C54 |
| `pfmla.c` 82–804, `pfmla-glu.c` 115–510, `pfmla.cc` 168–190, `xfmlae.hh` | Fmla* | C37, C38, C56–C59 |
| `xnspec.hh`, `xnpc.cc`, `xnsys.cc` 28–56, 275–357, `synthesis.cc` 17–123, 694–735, `prot-xfile.cc` 259–358 | Act* | C39, C40, C43 |
| `synthesis.cc` 122–261, `search.cc` 311–357 | Rank* | C41, C42 |
| `udp-impl/protocol.c` except I/O, `udp-impl/act.h` | Udp* | C45–C50, C60, C61 |
| `search.cc` 21–309, `synthesis.cc` 105–120, 836–888, 946–1500, 1586–1698, `xnsys.cc` 737–821 | Search* | C44, C62, C63 |
| `xnsys.cc` 81–88, 358–415, 824–883, 895–1054, `xnpc.cc` 96–132 | Net* | C64 |
| `xnsys.cc` 578–636, 1056–1262 | Cand* | C65 |
| `xnpc.cc` 176–273 | CandModel, Given* | C66 |
| `pfmla.cc` 204–455, `pfmla.hh` 455–543 | Int* | C67 |
| `prot-xfile.cc` 1155–1726, `prot-xfile.leg` 375–594 (the trees) | Expr* | C68 |
| `prot-xfile.cc` 358–695 (without the strings kept for output), `pfmla.cc` 59–104 on formulas | Cmd* | C69 |
| `xnsys.cc` 824–890 | NetModel (sync_xn), Sync* | C70 |
| `prot-xfile.leg` 82–110, 301–569, `prot-xfile.cc` 796–846, 905–962, 981–1153 | Parse* | C71 |
| `prot-xfile.leg` 167–251, `prot-xfile.cc` 188–356, 995–1001, 1405–1411, `xnsys.cc` 229–273, `xnspec.hh` 132–170, `prot-ofile.cc` 44–105 | Access* | C72 |
| `prot-ofile.cc` 168–273, 424–431, `xnpc.cc` 7–26, `xnpc.hh` 146, 227–230, `prot-xfile.leg` 124–128 | Print* | C73 |
| `xfmlae.cc` 219–367, `pfmla.h` 262–275 | Uniring* | C74 |
| `uni/generate.cc` 23–71, 119–123, 143–153, 212–545, `uni/unifile.cc` 292–321 | Gen*, LiveTorus | C75, C76 |
| `udp-ofile.cc` (what is printed as numbers and branches, not the layout), `udp-impl/protocol.c` 236–242, 643–664 | Ugen* | C77, C78 |
| `search.cc` 449–515, 698–1048 (the default search method; no guesses, known solution, layer optimisation) | Par* | C79, C80 |
| `main-mpi.cc` 336–361, `search.cc` 649–699 and 781–791 (outcomes only), `main.cc` 62–69 | Mpi* | C81 |
| `uni/classify.cc` 18–86, 213–235 | Class* | C85 |
| `promela.cc` 7–215, `xnsys.cc` 415–480 | Pml* | C88 |
| `synthesis.cc` 262–697 (without three methods no option selects), `opt.cc` 662–690 | Pick* | C89 |
| `prot-xfile.cc` 769–979, `prot-xfile.leg` 148–299 (not: the declarations, featherweight reading) | Decl* | C90 |
| `uni/synthesize.cc` 153–261 | Rsyn* | C91 |
| `prot-xfile.cc` 33–187, 1550–1594, `xnsys.cc` 121–226, `prot-xfile.leg` 23–82, 164–205, `xnspec.hh` 67–131 | Head* | C92 |
| `prot-xfile.cc` 697–768, `prot-xfile.leg` 142–146, `synthesis.cc` 1648–1661 | Clash* | C93 |
| `opt.cc` 135–325, 417–456, 781–783, `xnspec.hh` 67–107, `prot-xfile.leg` 735–744, `prot-ofile.cc` 10–19 | Inst* | C94 |
| `xnpc.cc` 76–95, `search.cc` 543–547, 577–613 | Same* | C95 |
| `pla.cc` 15–242, `prot-ofile.cc` 110–166 | Pla* | C96 |
| `xnsys.cc` 58–67, 641–697 | Integ* | C97 |
| `prot-xfile.leg` 267–283, 598–686, 707–712, `prot-ofile.cc` 286–329, `opt.cc` 48–130 | Style* | C98 |
| `graphviz.cc` 8–54 (lines only) | Graph* | C99 |
| `synthesis.cc` 1525–1583, `synthesis.hh` 198–222, `search.cc` 832–878, 900–904, `main-mpi.cc` 200–204 | Guess* | C100 |
| `biring.cc` 103–128, 158–215, 255–271, 330–473 | Biring* | C101 |
| `biring.cc` 69–86, 475–535, 608–731 | BiringEnum*, BiringPair* | C102 |
| `biring.cc` 130–140, 537–606, 843–946, 983–1006 | BiringFilter* | C103 |
| `biring.cc` 733–815 | BiringPicture* | C104 |
| `uni/xlate.cc` (without pictures), `uni/unifile.cc` 140–159, 232–264, 343–372 | Utext* | C87 |
| `uni/aperiodic.cc` 41–262, `uni/unifile.cc` 519–563 | Wang* | C86 |
| `interactive.cc` 11–401 without `topo`, `show-all-xn` and the reading of command names | Sim* | C82–C84 |

## What is not modelled

* Text input and output: the protocol-file parser (`prot-xfile.*` except the
  link declarations, the expressions and the actions), `prot-ofile.cc` (except declared accesses and actions), `pla.cc`, the commented-out formula of `promela.cc`, `graphviz.cc`,
  command-line options (`opt.cc`, `main*.cc`, the command names of `interactive.cc`), the GUI.
* The decision-diagram library itself and the alternative back ends
  (`pfmla-bittable.c`, `pfmla-genepi.c`, `pfmla-minisat.cc`).
* The stand-alone SAT-based tool `satsyn/*` and `msat.cc`.
* of `biring.cc` the labels in pictures, the text of specifications other than the invariant and the action, the list `subck_next10`, the reading of standard input, `better_biring_sat_ck` (not called), `biring-ext.cc`, pictures of `uni/xlate.cc`, `uni/generate.cc -bdd`, the tests.
* MPI runs other than the exchange of conflicts (C23) and the agreement on the result (C81).
* Running time and memory.

## Findings: places where the code does not do what its user relies on

Each is a theorem with the suffix `_refuted`, i.e. a concrete input of the model.

1. `canonical_ck` misses permutations of three or more values (C15).
2. The uniring generator may leave silent illegitimate states (C18).
3. `deadfree` misses cyclic deadlocks and rings mixing nodes (C28).
4. Image and pre-image of an empty set under the constant-true relation (C38).
5. `cycle_ck` restricted to a non-closed set may not end, or answer outside it (C32).
6. The base64 reader accepts over-long tokens and can write past its table (C05).
7. `livelock_semick` answers wrongly for protocols that are not self-disabling (C07).
8. Conflict families read from a file are not reduced and are not sent on (C21, C23).
9. `guided_livelock_ck` records action sets that are no livelock by themselves (C09).
10. "Livelock found" for an invariant that is not closed (C36).
11. `shadow_ck` returns more states than simulate the specification; style
    "future & silent" is not enforced without puppet variables (C54).
12. `Fmlae::img` of the constant-true set forgets unwritten variables (C59).
13. `pick_pre` of an unsatisfiable formula (C57).
14. Links added out of order through the API break uniqueness of representatives (C40).
15. Random generator of process 60 is constant (C50).
16. The UDP emulation is not atomic (C61); a stale packet does not repair a
    reserved marker (C48).
17. `ReviseDeadlocksMRV` can stop with a failed check (C41).
18. With three instances the search deletes needed actions and reports that nothing
    applies (C62).
19. `try_order_synthesis` poisons the conflict family and reads a missing candidate (C44).
20. Actions forced by the most-constrained-variable heuristic are not tested for
    coexistence (C44).
21. An action needed for a second specified transition of a legitimate state is
    deleted once the state has one transition; the search then misses the
    solution (C62).

22. The on-demand transition formula of a whole action (`xnsys.cc` 363–375)
    removes the image of all processes together, not process by process, so it
    loses moves that the formulas of the single processes and the stored formula
    have (`C64_union_lightweight_refuted`). Only candidate selection uses it.
23. The stored formulas of a class of symmetric actions are made self-disabling
    one action at a time, so their content depends on the order of the actions
    and differs from the on-demand ones when moves of the class follow each
    other (`C64_modes_agree_refuted`).

24. An action is rejected as forbidden only if all moves of all its symmetric
    variants are forbidden; otherwise it stays a candidate with its forbidden
    moves, although the documentation says a forbidden form may not be used
    (`C65_forbidden_refuted`).

25. The actions of a given protocol are replaced by the representatives of their
    classes of symmetric variants, so a given protocol that tells interchangeable
    links apart gains transitions (`C66_links_refuted`).  Checking a protocol with
    the plain stabilisation check uses the formulas as written, so the two can
    disagree.

26. **A quantifier that reuses the name of an index removes the outer one**
    (`C68_rebinding_refuted`). The index is erased from the map after the loop
    (prot-xfile.cc:1339), not restored. In `forall i < 2 : (exists i < 1 : …) && i == 7`
    the last `i` is an unknown name, or, if the file has a constant `i`, silently
    that constant.
27. **`x != 0 && 1 / x == 1` is refused** (`C68_guarded_refuted`). The right side of
    `&&` is skipped only if the left side holds in no state at all; otherwise the
    quotient is computed for all values of `x` and the division by zero aborts.
28. **A constant hides a `let` of the same name** (`C68_let_refuted`): constants are looked
    up before the lets of the process (and global predicates before its own).
29. **A process can use variables it does not read through a global predicate**
    (`C68_access_refuted`): the check that a process reads a variable is made where the
    variable is named, not where the predicate is used.

30. **An assignment after `_ := _` is lost, and so are all before it**
    (`C69_any_first_refuted`): the branch replaces the transitions by their start
    states (the code itself asks "Why?").
31. **A process that writes one variable through two accesses cannot change it**
    (`C69_written_twice_refuted`): only the first access is marked as assigned, the
    second one then has to keep its value.
32. **`-=>` removes more than self-loops** (`C69_rotation_refuted`):
    `true -=> x := (x+1)%3;` has no step left. The manual speaks of self-loops only.
33. **`-=>` removes steps that lie on no cycle** (`C69_between_cycles_refuted`), namely
    those on a path from one cycle to another.

34. **An equality of predicates is written without parentheses** (`C71_equality_refuted`).
    `a == b` on predicates is kept as the tree of `a <=> b` and written that way.
    In `(p) == (q) && r` the output file therefore says `(p) <=> (q) && r`, which is another predicate.
35. **Later invariants are appended without parentheses** (`C71_invariants_refuted`).
    The text kept of `(future & closed) x==0;` and `y==0 || z==0;` is `(x==0) && y==0 || z==0`.
    The invariant that is used is the conjunction, the one written to the output file is not.
    Assumptions are put in parentheses.

36. **A `symmetric` block that redefines a name in terms of itself never ends** (`C72_circular_refuted`).
    `symmetric i <- {# i-1 #} { read: x[i]; }` makes evaluation and printing look up `i`, find `i-1`,
    look up `i` again, and so on.
37. **Values of a block are written without parentheses** (`C72_names_refuted`). The accesses of
    `symmetric j <- {# i-1, i+1 #} { read: x[2*j]; }` are evaluated as `x[2*(i-1)]`, but the actions in the
    output file name them `x[2*i-1]`, which is another variable.

38. **The text of an action without visible variables is not read** (`C73_blind_refuted`). For a process that
    only has `yield:` accesses, say, the output file has `( --> x[i]:=1; )`, which the grammar rejects:
    the guard must be an expression.

39. **`-uniring` depends on the direction of the ring and on self-disabling processes** (`C74_turned_ring_refuted`,
    `C74_not_self_disabling_refuted`). `uniring_cycle_ck` lets the processes take turns from the last to the first.
    If process i reads `x[i+1]` instead of `x[i-1]`, the ring of three in which everybody copies the neighbour has a
    livelock that is not found, so the verification accepts it. The same happens in a ring of two whose processes
    can act twice in a row. Neither condition is checked.
40. **`-uniring` stops the program if processes have a choice** (`C74_choice_refuted`). The set collected by the last
    round may contain deadlocks that the circling states can fall into, and the Claim at xfmlae.cc:289 fails.
41. **The reachability check of `-uniring` does not check reachability** (`C74_weak_check_sees_deadlocks_only`,
    `C74_weak_check_accepts_refuted`, `C74_weak_check_rejects_refuted`, `C74_weak_check_never_ends_refuted`). For
    self-disabling processes it answers true as soon as there is no deadlock outside the invariant, and the number
    of layers it reports is 1 or 2. During synthesis it is applied to all remaining candidate actions together
    (synthesis.cc:1314), which are rarely self-disabling. Then it can reject a partial solution from which the
    invariant can always be reached, and its loop can alternate between two sets for ever.

42. **The generator stops for one or two values** (`C75_small_domains_refuted`). The search always tries the action
    (0,1,2), so `id_of3` fails its claim after everything else has been printed, unless actions are given.
43. **With the guided check the generator does not print every protocol that passes its checks** (
    `C75_guided_check_loses_a_protocol_refuted`). When the guided check succeeds, the two largest recorded actions are
    forbidden together in all levels above. The recorded actions need not form a livelock by themselves
    (`C09_recorded_set_sufficient_refuted`), and a protocol may pass the check although a part of it does not. A
    protocol with four values that passes all checks itself is not printed with a propagation limit above the period
    limit, and is printed with a smaller one. (A renaming of it is printed in both cases.)
44. **The generator prints the same protocol under different names** (`C75_printed_up_to_renaming_refuted`), because of
    finding 1.

45. **A second writer is not heard** (`C77_two_writers_refuted`). If two processes may write a variable, `udp-ofile.cc` makes
    the first one its owner. What the second one writes is sent to nobody and is overwritten by the owner's next packet.
    Such protocols are accepted elsewhere in the program.
46. **A variable seen twice is received once** (`C77_seen_twice_refuted`). In a two-way ring of two processes both
    neighbours are one process; the map `local_idcs` keeps the last position only, so the other copy keeps its initial
    value for ever and the guards test it.
47. **A kind without processes in the synthesised system shifts the code** (`C77_absent_kind_refuted`). The bounds
    `pc.idx < n` count the processes of the printed system, but kinds that have none in the synthesised one are skipped;
    processes then run the code of another kind, or none.
48. **Assumptions that need a look at other variables are refused** (`C78_repairable_refuted`). The generator wants one
    assignment that makes the assumption true whatever the other variables are; it stops with "can't fix itself" for an
    assumption such as "my bit equals my neighbour's" that the process can always repair.

49. **A conflict size limit below the size of a solution makes -try-all loop** (`C79_trimmed_solution_counted_again_refuted`).
    `search.cc:926` records a solution as a conflict so that it is not found again, `search.cc:985` then trims conflicts larger
    than `-max-conflict`. The same solution is found, counted and written to a new file in every trial, without end.
50. **MPI: a solution without layers counts as none** (`C81_no_layers_hides_solutions_refuted`). `main-mpi.cc:350` takes a
    minimum of 0 for "nobody found one". The rank/shuffle search and `-verify` never set the number of layers, so their MPI runs
    always report that there is no solution; in a mixed run one such process hides the solutions of all others.
51. **Verifying several files reports success if one of them stabilises** (`C81_bad_file_hidden_refuted`).
    `multi_verify_stabilization` only ever sets `solution_found`; files that do not stabilise or cannot be read are only logged.
    (`solution_found` and `ret_actions` are also written outside the critical section.)
52. **The simulator cannot read its own states** (`C82_state_lines_refuted`). `show-state` prints `x[0]==1`; `assign` takes
    `:=` or one `=` and then wants a number, so the line is silently ignored.
53. **`predicate cycle` may never return** (`C83_cycle_may_not_end_refuted`). `PFmla::cycle_ck` iterates images until they stop
    changing, which they need not do from an assumption that is not closed; the simulator does not check that it is.
54. **The simulator starts outside the assumption** (`C83_start_refuted`): all variables are 0, whatever is assumed, and
    `show-img` then offers nothing or a way in without saying so.
55. **`sstep` may leave the restriction** (`C84_sstep_leaves_refuted`): only the single changes are checked against it.

56. **`-nobdd` of the classifier ignores the minimum period** (`C85_nobdd_minimum_refuted`): it may answer with a smaller period where
    the formula method, which honours it, says unknown.  (Also, `-domsz` of this program reads its own name as the number and always
    fails.)
57. **UINT_MAX is a reserved colour in the Wang tile reduction** (`C86_reserved_colour_refuted`): a tile with it on the south and east
    edges is confused with the separating symbol.

58. **The forms of a nondeterministic list differ** (`C87_nondeterministic_refuted`): of two actions for the same values the id that `xlate`
    writes has only the last, the list and the protocol file have both; there is no warning.  A line without numbers ends the list, and what
    follows is ignored (`C87_list_rest`).
59. **`xlate -domsz 256` adds actions** (`C87_domsz_refuted`): the table entry for "no action" is the domain size in a byte, that is 0, so that
    every missing action becomes one that writes 0.

60. **`%` in an index makes a wrong Promela model** (`C88_mod_index_refuted`): a protocol's remainder is never negative, so nothing is added to
    the printed index, but SPIN's is: for `x[(i-1)%5]` process 0 reads `x[-1]`.
61. **A kind without actions shifts the others** (`C88_idle_kind_refuted`): no proctype is printed for it, but its processes are counted, so
    the processes of later kinds get negative indices and the model fails at once.
62. **Shadow variables in a Promela model** (`C88_shadow_refuted`): they are not unrolled but printed, so every action waits for 0 and assigns 0;
    steps of the solution are missing and shadow variables are never set.
63. A predicate defined inside a process has no effect if a predicate outside has the same name: the statements of the process
    use the one outside, without a warning (`C90_predicate_refuted`; lookup order in `eval`, prot-xfile.cc).
64. **The ring synthesis program loses the domain** (`C91_domain_refuted`): the written domain is that of the values in the actions.
    Three values with only (1, 1) illegitimate give a protocol over two values; an invariant that is always true gives `constant M := 0`.
65. **Only the first process is looked at** (`C91_first_process_refuted`): an invariant that depends on the index is accepted, and the protocol
    leaves its legitimate states.
66. **A ring in the other direction is accepted** (`C91_direction_refuted`), but the protocol that is written reads `x[i-1]` all the same.
67. **Two arrays of variables** (`C91_range_refuted`): accepted; if their domains differ, the generator writes outside of its matrix.
68. **A second declaration of a constant says nothing** (`C92_again_refuted`): it is accepted without a word, and the first one counts.
69. **A second declaration of an array** (`C92_twice_refuted`): it is accepted; the variables of the first one stay in the system, and no
    name stands for them.
70. **"conflict:" has no effect** (`C93_no_effect`, `C93_heeded_refuted`): the grammar notes the actions of a list, but nothing calls
    `push_conflict_action`, so the conflicts of every kind stay empty and the search never hears of them.
71. **A conflict that cannot happen is noted as another action** (`C93_possible_refuted`): `state_of_PFmla` of an unsatisfiable diagram gives the
    largest value of each variable, and the uniqueness test passes because nothing contradicts it. (A guard that is the constant `false` fails a Claim instead.)
72. **With an effect variable the noted values are no action** (`C93_action_refuted`): the value before the step is noted, though such a variable
    has one dummy guard value; the number that `action_index` would give is that of another action, or of none.

73. **The text of a constant with several values is not cut with them** (`C94_written_refuted`): the instance N = 3 of `-def N 3..5` keeps the
    expression "(3,4,5)", so `-nop -o` writes `constant N := (3,4,5)`, whose N[1] is 4, and `-o-promela` defines N as `((3,4,5))`.
74. **A misspelt option in `-param [ .. ]` is passed over** (`C94_unknown`): outside the brackets it would end the program.
75. **`-count-convergence-layers` and `-count-convergence-steps` change nothing** (`C94_instances`, po_layers and po_steps of `says`): both are
    on from the start and no option turns them off.
76. **The comparison of domains refuses more than it must** (`C95_needed_refuted`): a shadow variable that is only read has no part in the
    numbers of actions, yet an instance may not change its domain.
77. **Two actions with one guard stop the program with `-espresso`** (`C96_choice_refuted`): the shortest equivalent table joins them in a
    line with two values for an assigned variable, and `Claim2( vals.sz() ,==, 1 )` fails (`pla.cc` 155).
78. **Variables that are written but not seen are tested for 0 in tables** (`C96_unseen_refuted`): `oput_pla_act` writes the guard of
    every variable that is not pure shadow, also where the action has only the dummy value 0 (`yield:`, `effect:`).
79. **An action that leaves a shadow variable alone has an empty field** (`C96_left_alone_refuted`): the line stands for no action at all, and
    would fail the same Claim if it came back.
80. **A random write becomes an assignment of 0** in tables (`C96_random_refuted`).
81. **Reading a variable of the specification at random stops at a Claim** (`C97_message_refuted`): the identity relation already lets it change
    (`xnsys.cc` 66), so `Claim(topo.identity_xn.subseteq_ck(this->shadow_self))` (650) fails before "Can only 'random read' with puppet variables!".
82. **"Invariant includes non-shadow variables" does not come for every such invariant** (`C97_invariant_refuted`): `x == p` with a puppet
    variable `p` is accepted. `integrityCk` asks only that each value of `p` has some legitimate state.
83. **`-style "((future & closed) % puppet)"` gives an output that cannot be read** (`C98_written_refuted`): the style is accepted as an
    option (`opt.cc` 98) and written, but `LegitMode` has no alternative for it.
84. **Three styles of files cannot be given as an option** (`C98_option_refuted`, `C98_option_exact`): `(future & future silent)`,
    `(future & future active shadow)` and `((future & active shadow) % puppet)`. Also the other order of the words is refused (`C98_order_refuted`).
    One branch of `parse_style` (`opt.cc` 110) repeats `(future & silent)` and is never taken.
85. **The last alternative of `LegitMode` is never taken** (`C98_last_line`): `prot-xfile.leg` 278 repeats `FUTURE_AND_SILENT`.
86. **An arrow of the picture may point to a process that sees nothing** (`C99_told_refuted`): `rvbls` has every access, also those
    that are only written (`yield:`, `effect:`), so two processes that only write a variable are joined in both directions.
87. **`-x-try-subset` does not look for a part of the suggestion that works** (`C100_part_refuted`, `C100_order_refuted`): the
    actions are picked in their order as long as they are candidates in some instance, and the first pick that fails ends the
    trial, so a suggestion that contains a solution is refused. Which part is returned depends on the order, which is random
    with a random pick.
88. **An interrupted test says yes** (`C100_interrupted_refuted`): a signal (or a file `kill-protocon`) ends the loops, but
    `solution_found` stays true if one suggestion had been accepted, although the others have not been tested.
89. **`-subck-known` with two values sets bits beyond the size of the table** (`C103_known_refuted`): the known sets name the values 0 to 2,
    but the table is made for the given number of values. With two values the position of the view (1,2,0) is 10 of 8. (With four
    values `subck_next10` likewise reads 64 characters of strings of 27.)
90. **`-pair` with `-xlate-invariant` or `-o-spec` prints a weaker invariant for a set not given by pairs**
    (`C103_pair_states_refuted`): the filter takes any table from standard input and does not test that it is given by pairs. For
    the tables that the tool itself prints with `-pair` the invariant is right (`C102_printed_pair`, `C103_pair_states`).

Noted while reading, outside the model: a kind of process with shadow variables only is printed with the empty test
`if ()`, and values are `uint8_t` so domains above 256 wrap. `protocol.h` declares `RandomMod` but
`protocol.c` defines `random_Mod`; the check `nlayers_sum > 0` aborts when
verification is off; `revise_actions_alone` reads `mcv_deadlocks[1]` when the
table may be shorter.
