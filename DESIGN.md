# Formal model of eaburns/search in Rocq (Coq 8.16.1)

## Layout

* `properties.jsonl` - the properties (C01, C02, ...), in terms of the API.
* `rocq/theories/<Component>/Model.v` - the executable model of the code, function by
  function, every definition with a `file: lines` citation into the source tree.
* `rocq/theories/<Component>/Proofs.v` - lemmas.
* `rocq/theories/<Component>/Props.v` - the specification vocabulary (independent of the
  model's helpers), the property theorems, non-vacuity examples and `Print Assumptions`.
* `MANIFEST.json` - property -> theorem names and status.
* `seeded/LOG.jsonl` - wrong-program experiments.

## Conventions

* Pointers are indices (`nat`) into a store; intrusive fields (heap index, hash chain
  pointer, ...) live in the store, as in the code.
* Anything the C++ program may not do (index outside a vector, null dereference, failed
  `assert`, `fatal`, division by zero, signed overflow) is an explicit outcome of the model
  (`None` or an error constructor), never a default value; theorems say that it does not
  happen, or characterise when it does.
* Recursion that the code performs without a structural bound gets a fuel argument; running
  out of fuel is a distinct outcome, and termination theorems give a sufficient fuel.
* Machine integers: `Z`/`N` with explicit wrap-around where a property is about ranges;
  elsewhere mathematical integers, stated in the citation comment.
* Floating point: replaced by exact arithmetic (`Z`, `Q` or `R`, or an abstract ordered
  structure given by section variables); rounding is not modelled. Stated per component.

## Plan per property

| id | model | proof |
|----|-------|-------|
| C01 C02 C03 | BinHeap as (array, index store), pullup/pushdown/swap/pop/... line by line; OpenList wrapper | heap-order invariant with one hole, permutation and index-exactness invariants by induction over operation sequences; refutation for clear |
| C04 | Maxq and OpenList<int> as vectors of vectors plus index store | invariant: bucket membership = prio/tieprio, min/max bounds; refinement to a multiset |
| C05 C06 | Intpq buckets with intrusive prev/next links | refinement to lists per bucket |
| C07 C08 | Djset store parent/rank, find with path compression | well-founded parent order, equivalence closure; unbounded family for the rank defect |
| C09 C10 | Htable chains through the intrusive next field | refinement to chain lists; witness for rm |
| C11 C12 C13 | ClosedList, iterator, resize | the same, plus permutation of iteration |
| C14 | Pool: blocks, bump index, free list | invariant over get/put histories |
| C15 C16 | k-d tree over an abstract ordered ring | invariant of insert; pruning lemma |
| C17 - C20 | Stn nodes, arcs, undo log, recursive propagation | bounds sound and complete; undo log inversion |
| C21 - C24 | byte lists | induction over runs / 3-byte groups |
| C25 C26 | Ranker tree array, bit tricks | tree invariant = count of used values |
| C27 C28 | Z with explicit ranges | case analysis (lia/nia) |
| C29 | 64-bit N arithmetic | modular arithmetic; bijectivity of the xorshift steps |
| C30 C31 C32 C33 | byte strings | induction over strings |
| C34 - C40 | best-first search over an abstract domain (section variables), node store, open list, closed map | invariants over the main loop |
| C41 C42 | IDA* depth-first recursion with fuel | induction on depth |
| C43 | Beam search loop | invariant |
| C44 | ARA* | invariant |
| C45 C46 | RTA* step, LSS-LRTA* learning | induction on lookahead, Dijkstra invariant |
| C47 - C50 | tiles on a parametric width x height board | list surgery, parity invariant |
| C51 - C53 | pancake stacks, aliasing of parent state | list reversal lemmas; witness |
| C54 - C57 | grid maps, move tables | coordinates arithmetic; path induction |
| C58 C59 | vacuum state, h with bounds-checked array read | path induction |
| C60 - C63 | dock robot | sorted-list lemmas, numbering round trip, Floyd-Warshall invariant |
| C64 | segments operators, decimal printing/scanning | string induction |
| C65 C66 | traffic | modular arithmetic; witness |
| C67 C68 | RDB attributes and a file system tree | operation induction |
| C69 C70 | profile/monitor over exact rationals | dynamic programming induction |
| C71 | start/goal scan loop | witness + general statement |
| C72 C73 C74 C76 C78 | the searches instantiated with the modelled domains | transfer of C35/C36/C41 through domain_ok, admissibility and finiteness |
| C75 C77 | vacuum Charge, dock-robot heuristic | characterisation; lower-bound argument per box |
| C79 | two hash tables sharing one link field | chain reasoning on the Hash model |
| C80 | LSS-LRTA* main loop | potential argument over the learned values |
| C81 C82 | segments heuristic and bounds | real-number lower bound; witness |
| C83 | A* along one solution, on infinite spaces | frontier argument; counting f-values |
| C84 C85 | traffic moves, command-line attributes | case analysis; round trip |
| C86 - C90 | platform game physics in units of 1/40 pixel | invariant over all control sequences |
| C91 C92 C93 | limits of IDA*, counters, no reopening with consistent h | invariants over recursion / main loop |
| C94 | Sturtevant letters | composition of loader and movement check |
| C95 | byte-array hash on 32-bit words | the three reading loops agree; mixing steps are bijections |
| C96 - C100 | BUGSY over any estimator; the two estimators of the code | simulation by a best-first search with arbitrary choices; heap order under re-keying; two-run relation |
| C101 - C102 | pattern databases | index is injective and in range, hence a store; over C25, C26 |
| C103 - C105 | grid maps to polygons: union-find components, boundary walk, choice of the bound | walk is injective on the finite set of boundary edges, hence closes; winding numbers of neighbouring cells; over C07 |
| C106 - C110 | boxes, segments, polygons and maps of polygons, exact arithmetic with the tolerances of the code | case analysis of the branches over exact rationals; parity of crossings; removing a vertex keeps outline and parity |
| C111 - C112 | the free space of the polygon map of a framed grid map is one room of the grid map | a potential per component that is constant off the component; the potentials add up to the indicator of the room; rightward and leftward rays of a closed path agree |
| C113 - C114 | shape, vertices and links of the visibility graph | a graph is its points and the list of linked pairs in order; each operation is an equation on these; counting edges is counting pairs |
| C115 | VisNav: ends, heuristic, path costs over the reals | triangle inequality (Rgeom), induction over ways |
| C116 | Dijkstra from the goal over BinHeap with decrease-key (platform game) | loop invariant: popped keys are final and no larger than the queued ones; over C04 |
| C117 - C119 | map and heuristic of the platform game, in exact rationals | over C86, C103 - C114, C116; the tile of a box moves to neighbouring tiles only; a walk's boxes are a way clear of the walls; C119 is relative to the completeness of the visibility graph |
| C120 - C122 | f-hat LRTA* over the LSS-LRTA* model, distances and errors in exact rationals | node-table invariant of the lookahead; learning projects to that of LSS-LRTA*; witness for reopened nodes |
| C123 - C126 | command lines as lists of byte strings; lookahead counters; table of sizes; timers as a transition system | induction over the words against a grammar of lines; invariants over all interleavings of starts, finishes and signals |
| C127 - C129 | DTA* over BinHeap, values in exact rationals; the decision to go on and the lookahead are parameters | invariants of the shared memory, of each local search and of the forest; witnesses for what scaling by 1.1 breaks |
| C130, C131 | random trees over the k-d tree model, coordinates and samples as parameters | invariant of the tree over all iterations; over C15; completeness from samples that keep picking each state |
| C132 | restarting search over any search | induction over the restarts |
| C133 | rows along the solution of A* | suffixes of an optimal solution are optimal, over C35 |
| C134 | reservoir sample over all sequences of draws | induction over the records, counting sequences |
| C135 | scenario runs over any search and any maps | induction over the entries, invariant of the map cache |
| C136 | LSS-LRTA* with -complete, over any order of the hash table | invariant of the loop over the nodes, invariant of the lookahead; termination by the room left for the values and the value of the current state |
| C137 | addattrs, over all files of proper lines and all arguments | induction over the lines before the first pair and after it, refinement of the attribute list, C31 for the pairs written |
| C138 | dfcmplt, over all files of proper lines | induction over the lines |
| C139 | training of DTA*'s table, over all sets of rows | the table after each row in closed form, by induction over the rows |
| C140 | keepGoing of DTA*, over all tables and lists of nodes | induction over the rounds with an invariant of the cache of minima |
| C141 | reading the training rows of DTA*, over all files | induction over the lines and files, the mean times the number of values is their sum |

## Trusted base

* Coq's kernel (8.16.1). `vm_compute` is used for concrete examples and refutations only (no `native_compute`).
* The fidelity of the hand-written models to the C++ text. Every definition cites file and lines; nothing is extracted or
  generated, and the C++ was not executed.
* Libraries: the standard library, std++ (lists, finite maps, decidability) and, in Kdtree/KdFloat.v only, Flocq. No axiom
  of any of them other than the standard library's is used.

### Print Assumptions

Every property theorem is followed by a `Print Assumptions` in its file (or its section's end); the output appears in the
build log. All are **Closed under the global context**, except those that mention the real numbers of the standard library:

| theorems | axioms |
|---|---|
| C15_nearest_is_minimal_in_double_arithmetic | ClassicalDedekindReals.sig_not_dec, ClassicalDedekindReals.sig_forall_dec, FunctionalExtensionality.functional_extensionality_dep, Classical_Prop.classic |
| C56_admissible_with_root, C64_going_back_never_pays, C81_admissible, C81_distance, C81_inconsistent_refuted, C115_*, C116_diagonal | ClassicalDedekindReals.sig_not_dec, ClassicalDedekindReals.sig_forall_dec, FunctionalExtensionality.functional_extensionality_dep |

There are no axioms, parameters, admitted proofs, functors or module types of our own. Unknown functions (comparison,
hash, heuristic, random numbers, clock, file contents, geometry of segments) are variables of closed sections, so that the
theorems quantify over all of them.

## What is modelled

| code | model | left out |
|---|---|---|
| structs/binheap.hpp; search/search.hpp 96-143 | BinHeap | - |
| search/search.hpp 151-260 (integer open list) | IntOpen | - |
| structs/intpq.hpp | Intpq | - |
| structs/djset.hpp | Djset | - |
| structs/htable.hpp, search/closedlist.hpp | Hash | statistics counters |
| utils/pool.hpp | Pool | constructors/destructors of the objects |
| structs/kdtree.hpp | Kdtree | range queries by rectangle output order; the arithmetic is a parameter, instantiated with IEEE doubles in KdFloat.v |
| structs/stn.{hpp,cc} | Stn | printing, copying, grow after constraints exist |
| utils/encode.cc; controlstr/controlvec | Encode | - |
| utils/rank.cc | Rank | destructor |
| utils/hash.c (hashbytes, hashlittle2) | Jenkins | hashlittle, big-endian and VALGRIND variants |
| utils/math.cc (integer part), safeops.hpp, rand.cc | Arith | floating-point functions |
| utils/str.cc, datafile.cc (pairs, rows, reader), fs.cc (paths, readline), commas | Text | printf formatting |
| search/astar.hpp, wastar.hpp, greedy.hpp | Search/Model.v | output, wall clock (the time flag may fire at any check) |
| search/beam.hpp | Search/Beam.v | output |
| search/bugsy.hpp, bugsy-slim.hpp | Bugsy | output, option parsing, rounding of doubles (C96 holds for any utilities, NaN included) |
| search/idastar.hpp | Ida | output |
| search/arastar.hpp | Ara | output except the incumbent rows; Incons' sharing of links is in Ara/Incons.v |
| search/rtastar.hpp | Rta | output |
| search/lsslrtastar.hpp | Lss (-complete in Lss/Complete.v) | output |
| search/fhatlrtastar.hpp | Fhat | output, rounding of doubles (d, errors and fhat are exact rationals, h and costs integers) |
| search/dtastar.hpp | Dta | the decision to go on (keepGoing's estimates of gain and the probability tables) is a parameter: any function of the step and the round (the decision and the training of the table it reads are modelled on their own, Dta/Decide.v and Dta/Table.v, the reading of its rows in Dta/Rows.v); the choice of the training files by domain, output, rounding of doubles (values are exact rationals, costs integers), the copy of the final state |
| search/rrt.hpp | Rrt | coordinates of states and samples are parameters, the arithmetic is that of Kdtree; pictures, output, the random generator, a second search with the same tree |
| search/astar-dump.hpp (dumpgoal), search/learnh/hlms.cc (dfline) | Learnh | the search itself (that of Search), loss by printing, the least squares fit |
| gridnav/scenario.cc, SearchStats::add | Scenario | reading of the file and of options; search, maps and instances are parameters |
| search/restartingsearch.hpp | Restart | the restarted search is a parameter; the call of act, which no domain has |
| search/search.cc (Limit, LookaheadLimit::fromArgs), search/lsslrtastar.hpp (ExpansionLimit, MaxTimeLimit) | Limits | strtod is a parameter without infinities and NaN; getrlimit, setrlimit, sigaction and setitimer succeed; the clock is an input; times are exact rationals; signals come between calls, not inside them; the cache file of the table and the training files are not read, their contents are inputs |
| tiles/tiles.*, mdist.*, packed.hpp (64 bit), generator.cc (solvable) | Tiles | file reading, hashing |
| visnav/grid2poly.cc | Grid2poly | the size check, unsigned wrap-around of coordinates (x-1 at 0 is out of the map either way), geom2d::Poly itself (a list of vertices; made into polygons in Geom/Grid.v), toggle (unused) |
| utils/geom2d.hpp, geom2d.cc, visnav/polymap.* | Geom | rounding of doubles (exact rationals), arcs, random polygons, giftwrap, triangle, minisect, the angle test of removecolinear is exact, text format, drawing |
| visnav/visgraph.*, visnav.* | Visnav | rounding of doubles (points are exact rationals, distances a parameter, reals in Route.v), text format, drawing, hashes |
| tiles/pdb.* | Pdb | the copy of the pattern (never read), output, allocation failure |
| pancake/* | Pancake | file reading, hashing |
| gridnav/gridmap.*, gridnav.* | Gridnav | header parsing, drawing |
| vacuum/vacuum.* | Vacuum | newlines of the file, drawing |
| drobot/drobot.* | Drobot | instance parsing, printing |
| segments/segments.* | Segments | geometry (line, ok are variables), drawing |
| traffic/gridmap.*, traffic.* | Traffic | file parsing, drawing |
| rdb/rdb.* and the file functions it uses, rdb/addattrs.cc, rdb/dfcmplt.cc | Rdb | the other command-line tools, permissions, failures of opening and renaming |
| search/anyprof/profile.* | Anyprof | text format, rounding of doubles |
| plat2d/tile.*, lvl.*, body.*, player.*, plat2d.* | Plat2d | pictures (savemap), rounding of doubles |

Numbers: costs, coordinates and counters are mathematical integers unless the table or the file's head says otherwise;
wrap-around and overflow are modelled where a property is about them (Arith, Rank, Stn, Encode, Segments, Plat2d levels).
Doubles are replaced by exact numbers (integers in a suitable unit, rationals, pairs a + b sqrt 2) except in KdFloat.v,
which uses IEEE rounding.

## What is not modelled

search/dtastar-dump.hpp, flrtastar.hpp (included nowhere),
learnh/* except the sample of hlms.cc, visnav/* except grid2poly.cc, polymap.*, visgraph.* and visnav.*, arcs and random polygons of geom2d, graphics/*, watch and draw programs, main functions and
option parsing, utils/image*, utils/ command-line tools, those of rdb/ other than addattrs and dfcmplt, generators other than the
tiles' solvability test and the random maps of gridnav.

## Findings

Defects met while modelling, each either proved as a theorem (name in parentheses, usually `..._refuted`, where a natural
claim is shown false of the faithful model) or seen while reading.

*Data structures*: clear() of heap and integer open list leaves node indices in place (C03); Intpq::clear likewise (C06);
union by rank raises the rank of the wrong object (C08); htable's rm changes a local pointer instead of the chain (C10); a
node cannot be in two closed lists (C13); Stn's equality may answer true for different networks (C20); Stn::grow after
constraints leaves dangling arc pointers.

*Utilities*: fallfact(x,0)=x; unsigned safe::sub uses add's check, signed sub is undefined at 0-MIN, signed mul is undefined
with -1 and misses MAX+1 (C28); Rand seeded with Vini is constantly zero, integer() overflows for an upper bound of
INT64_MAX, real() may return 1.0; ~Ranker uses delete on an array; dfpair, dfrow and dfrowhdr are off by one at 256
characters; readline is undefined on an empty line; pathcatn is always undefined (and unused), pathcat undefined on an empty
directory; commas treats the sign as a digit ("-,100"); tokens() merges a bare token directly followed by a quoted one.

*Best-first searches*: with -dropdups weighted A* loses its bound even with consistent heuristics
(C39_wastar_dropdups_refuted); pruning by the reverse operator is unsafe without true reverse operators
(C38_pruning_unsafe_without_reverse); greedy search may run for ever on an infinite space with a solution
(C83_greedy_diverges_refuted); the path reported by greedy search may be cheaper than its g. IDA* never ends on unsolvable
problems (C42). Beam search reads width uninitialised if -width is missing, and aborts on rediscovery of a cleared node
(C43_beam_stale_index_aborts).

*ARA\**: prints bound 0 when no node with f<cost remains (C44_bound_zero_refuted); says "converged yes" under a limit and
"converged no" for an optimal incumbent when open runs empty with a weight above 1; a row's cost may exceed its path's cost
(C44_exact_cost_refuted); with an admissible but inconsistent heuristic "bound 1" can be wrong (C44_inconsistent_refuted);
findbound edits the heap without updating indices (repaired by the following append); Incons shares its link field with the
closed list, which truncates or duplicates chains (C79).

*RTA\**: the value to be stored always goes to the start state's entry (rtastar.hpp:57,60), ties store the next distinct
value; the search may loop for ever on a finite undirected graph (C45_completeness_refuted).

*LSS-LRTA\**: aborts when the local open list empties without a goal (C80_dead_end_refuted) or with lookahead 0
(C80_no_lookahead_refuted); closed nodes that cannot reach the frontier keep an old h (C46_dead_end_inconsistent); with
-onestep and lookaheads of varying size it can loop for ever (C80_onestep_refuted).

*BUGSY*: with -noresort line 314 assigns the delay the wrong way round, so that -expdelay does nothing (C100); `usedlms` and
`interph` are read uninitialised unless their options are given; options are only recognised when not the last argument;
with -dhat an average error of 1 divides by zero; bugsy-slim's reset() iterates over the closed list after clearing it, so
that no node is destroyed.

*Seen in code that is not modelled*: fhatlrtastar.hpp reads `kid->parent` and the root's fhat uninitialised and asserts on an
empty open list; dtastar.hpp takes the maximum where it clamps a bin index to hmax/fmax, so that every sample of the tables
falls into the last bin, reads `avgmeta` uninitialised, parses the lookahead option once per argument, calls back() on a
vector that may be empty, and an assertion after the search reads a node that has been freed.

*Grid to polygons*: without a closed frame the conversion can run forever (C105_open_frame_refuted) or return a bound outside
the map (C105_no_frame_refuted); with several rooms only one becomes the bound (which one: C111); a map without free cells becomes one without obstacles (C111, solid_polymap).  *Polygons*: LineSg::isect of collinear segments misses a
receiver strictly inside the argument (C107_contained_refuted), and crossings of nearly parallel segments, slopes closer than
2^-26 (C107_parallel_refuted); PolyMap::max takes bbox.min.y for the maximum (C110_max_refuted); Poly::Poly on vertices that
all agree drops all of them and then reads before the start of the empty vector (C108_defined).  *Visnav (seen, not modelled)*:
gridnav/2poly.cc indexes columns with the width instead of the height, which is wrong on maps that are not square;
visnav/rand.cc with -o writes to standard output; VisGraph(FILE*) leaves polyno empty, so that points added to a graph read from a file may be linked through the obstacle of a corner; VisGraph::output writes six digits of points and distances separately, so that h may exceed the cost of an edge read back; neighbouring corners may be linked twice (C114); the size check of the PolyMap
constructor divides by a height of zero.

*Pattern databases*: the sparse index multiplies in 32 bits, so that on the 4x4 board patterns of nine tiles and more collide (C101).  *Tiles, pancake*: readruml accepts boards of mismatched size and does not check positions; solvable() of the generator
divides by the height (C50_even_width_refuted); pancake edges change the parent's stored state while the closed list is
consulted, so that children are dropped or parents lost (C53).

*Gridnav*: Edge.revcost on life-cost maps is wrong for moves that change the row (C55_reverse_cost); ident() reports cost 1
where the edge costs the row number; start and goal are not bounds-checked before use; unknown Sturtevant letters read
uninitialised flags; swamp and water cells are refused as start or goal although they can be entered (C94); lifecost is
uninitialised for Sturtevant maps; life4cheap is -1 on the top row (C57).

*Vacuum*: h reads out of bounds at every goal state (C59), Charge aborts (C75).

*Drobot*: unsorted initial piles break edges (C62); the table of hop counts is wrong (C63_steps_refuted); moves along
infinite edges are offered; a box in no pile packs as "on the robot"; the heuristic is admissible, not consistent (C77).

*Segments*: bounds swap width and height, or contain a diagonal (C82); reverse operators do not restore the gripper
(C64_going_back_never_pays shows pruning is harmless); revcost is unset for Nop; h is inconsistent (C81_inconsistent_refuted).

*Traffic*: division by zero on one-row or one-column grids (C65_one_row_refuted); h is inadmissible because of teleports
(C66_inadmissible_refuted), although A* from the start stays optimal; unsolvable instances run for ever
(C66_unsolvable_never_ends); the Ident operator reads mvs[8] (C84_ident_refuted); unpack leaves stale cached values in a
reused buffer; randinst prints "NOT SOLVABLE" also when a limit stopped greedy search.

*RDB*: lookup of a missing key inserts it (C67_lookup_missing_refuted); rm(front()) reads a destroyed string; withattrs
returns files lacking a queried attribute (C68_lacking_refuted); pathfor may return an existing directory or abort
(C68_directory_refuted); "KEY=" in the root makes queries empty (C68_key_in_root_refuted); query value "." recurses until the
path is too long; a first argument starting with '=' is undefined (C85).

*Anytime profile*: with a negative time weight the policy of the last bin is not optimal (C69_negative_weight_refuted); one
time bin aborts (C69_single_time_bin_refuted); at the worst cost it stops against its own policy (C69_worst_cost_refuted); no
solutions fail an assertion (C70_no_solution_refuted); in doubles costbin/timebin may round up to the number of bins.

*f-hat LRTA**: a node expanded twice is counted once but leaves the count of closed nodes each time it is popped while
learning; learning then ends early and leaves values that are too high, so that consistent values become inadmissible
(C122_reopened_refuted).  The error of d is measured on learned distances though the comment says original ones
(C121_original_d_refuted).  The averages divide by one more than the number of observations (C121_average).  The fhat of the
root is read uninitialised.  The comparison of fhat has a tolerance and is not transitive, so the open list's heap is not
ordered by anything (C121_order_refuted).

*DTA\**: a stored value is multiplied by 1.1 and becomes inadmissible
(C128_admissible_refuted); when a local search has expanded a goal its value is that of the next open node, not of the
goal, so that 6.6 is stored for a state at distance 2 (C128_value_refuted); the comment that an expanded goal is an optimal
solution from the root is false for ways through the current state (C129_optimal_refuted; without those it is true, C129_goal);
the same gap makes the values of -learnfull inadmissible (C128_learnfull_refuted); the assertion that no other goal is cheaper
than the expanded one can fail from the second step on, in exact arithmetic, because of the factor 1.1
(C127_assertion_refuted); before that it holds (C127_step_ends).  The root of a local search is not in its table of nodes: it
can be generated again and learning never updates it.

*RRT*: it looks at no limit and goes on for ever if no goal can be reached (C131_no_goal); an initial state that is a goal is
not noticed (C131_initial_goal_refuted); the seed after -s is never read, the word "-s" itself is, so that the seed is zero
(C131_seed_given); seen while reading: reset() destroys the nodes but leaves them in the k-d tree, so that a second search
reads destroyed nodes.  *Restarting search*: the last state of the way is missing from the path (C132_path_refuted), and
with a search that is not optimal it can go to and fro for ever (C132_ends_refuted); it calls d.act, which no domain has.
*Sample of hlms*: integer(0, t) includes t and t was increased before, so the first records are kept too often
(C134_sample, C134_uniform_refuted).  *Scenario*: an entry without a path fails the assertion in pathcost, the rule for
it is never reached (C135_nopath_refuted); the version is read from std::cin whatever stream is given.
*addattrs*: attributes are added only before an existing pair; in a data file without any pair they are lost without an
error (C137_no_pair_refuted).
*Table of DTA\**: hbin and fbin take the larger of a value and the maximum where the smaller one is meant, so that every
row counts for the largest h and f; the table depends on nothing but these and the depths that occur (C139_table), and is
not the share of the rows meant (C139_share_refuted).  keepGoing converts infinity to
an unsigned number in its last two rounds, so that it never decides to stop in a defined way once an open node is above the f
of the second lookahead (C140_never_stops, C140_training_undefined); its cache of minima forgets the earlier nodes for values
of f that come into range later, so that it can go on where the gain is zero (C140_cache_refuted).

*Limits*: the size of a dynamic lookahead is the smallest one that is too slow, not the largest one that is fast enough
(C125_affordable_refuted); the mark of a time limit that has run out is never reset, so a search algorithm that is used again
stops at once (C126_reuse_refuted); finishing a limit that was not started takes away the mark of the running one and its
signal dereferences a null pointer (C126_unmatched); the tests `end == NULL` after strtoul are never true, so "-lookahead 3x" is
3, and "-lookahead 4294967296" is refused as zero; text that is no number means no limit.  Seen while reading: a cache file that
is cut off leaves its first entries in the table that is then built again; the key read is "mean step cpu time" though the
table is said to hold the maximum; timelimit() is never called.

*Plat2d*: the check for a second start compares x0 with the height, so that levels taller than wide are always refused
(C71_narrow_refuted); Edge's assertion on dy fails after falling out of water (C87_speed_refuted); Edge.revop does not lead
back (C88_reverse_refuted), so pruning may drop states; letting go of the jump button is not offered (C88_let_go_refuted);
equality of packed states has a tolerance, their hash has not; a level without a border of walls reads out of bounds.
The heuristic's map is only the room of the rightmost free tile of the topmost row: a level with start and goal next to each
other in another room fails an assertion (C117_pocket_refuted), and with the goal alone in that room the heuristic reads
before the start of a vector in every state (C117_start_elsewhere).  The diagonal term of an edge's cost never decides
(C116_diagonal).  That the heuristic is admissible where the goal is hidden is proved only relative to the visibility graph
knowing a way not longer than any way clear of the walls (C119_admissible_partial).

## Wrong-program experiments

`seeded/LOG.jsonl` has one line per experiment: in a scratch copy of the theories one definition of a model is edited the way
a realistic bug would change the code, and everything is rebuilt with `make -k`. "failed" lists the first lemma or theorem
that no longer compiles in each file, "blocked" the files that could not be built for that reason. Where an edit survived,
"tightened" names the theorem added or changed afterwards; some survivors are harmless edits (the claim says "none").
