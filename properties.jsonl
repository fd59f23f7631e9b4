{"id": "C01", "title": "Binary heap pops a minimum and loses nothing", "statement": "Whatever sequence of push, pop, update (after a priority change), pushupdate, append and reinit has been applied to an initially empty BinHeap, pop on a non-empty heap returns an element that no element still in the heap strictly precedes, removes exactly that element and keeps all the others; pop on an empty heap returns nothing.", "quantifier": "all element types and all strict weak orders, all operation sequences, all heap sizes", "why_tests_cant": "Tests run a handful of operation sequences; the claim ranges over every sequence and every size.", "anchors": ["structs/binheap.hpp: BinHeap::push, pop, update, pushupdate, append, reinit, pullup, pushdown, swap"]}
{"id": "C02", "title": "Binary heap reports exact positions", "statement": "After every BinHeap operation the last index reported through setind for each element in the heap is the position at which it is stored, and the last index reported for a popped element is -1; therefore update(index) always repositions the intended element.", "quantifier": "all operation sequences without clear, all sizes", "why_tests_cant": "Tests run a handful of operation sequences; the claim ranges over every sequence and every size.", "anchors": ["structs/binheap.hpp: BinHeap::swap, push, pop, reinit"]}
{"id": "C03", "title": "Clearing an open list leaves stale membership", "statement": "OpenList::clear empties the list but OpenList::mem keeps answering true for nodes that were in it; a later post_update of such a node aborts the process (index out of range) or, if the heap has grown again, silently does not insert the node. Beam search performs exactly this sequence. (Defect characterised.)", "quantifier": "all heaps containing at least one node", "why_tests_cant": "The failure needs clear() in mid-search followed by rediscovery of a discarded node; tests never reuse nodes after clear.", "anchors": ["search/search.hpp: OpenList::clear, mem, post_update", "structs/binheap.hpp: BinHeap::clear, update", "search/beam.hpp: BeamSearch::search"]}
{"id": "C04", "title": "Integer open list pops in (prio, -tieprio) order", "statement": "For integer costs, after any sequence of push, pop and pre_update/post_update pairs, OpenList<int>::pop on a non-empty list returns a node whose prio is minimal among the contained nodes and whose tieprio is maximal among those, never reads outside its vectors, and removes exactly that node; empty() is true exactly when no node is contained.", "quantifier": "all operation sequences, all non-negative priorities", "why_tests_cant": "Tests run a handful of operation sequences; the claim ranges over every sequence and every size.", "anchors": ["search/search.hpp: OpenList<Ops,Node,IntOpenCost>, Maxq"]}
{"id": "C05", "title": "Integer priority queue pops minimal priority, LIFO inside a bucket", "statement": "After any sequence of push, pop and rm, IntPQ pop returns an entry of minimal priority, the most recently inserted one among equals; rm removes exactly the given entry; mem is true exactly for contained entries; empty exactly when none is contained.", "quantifier": "all operation sequences, all priorities below the point where the resize arithmetic wraps", "why_tests_cant": "Tests run a handful of operation sequences; the claim ranges over every sequence and every size.", "anchors": ["structs/intpq.hpp: Intpq::push, pop, rm, mem, empty"]}
{"id": "C06", "title": "IntPQ clear leaves entries marked as members", "statement": "After clear() on an IntPQ, mem still answers true for every entry that was inside, and removing such an entry corrupts the fill count. (Defect characterised.)", "quantifier": "all non-empty queues", "why_tests_cant": "Only visible when entries outlive clear().", "anchors": ["structs/intpq.hpp: Intpq::clear, mem, rm"]}
{"id": "C07", "title": "Disjoint sets decide the equivalence generated by joins", "statement": "After any sequence of join and find on any number of Djset objects, find terminates, and two objects return the same representative exactly when they are connected by the joins performed so far.", "quantifier": "all numbers of objects, all join/find sequences", "why_tests_cant": "Tests run a handful of operation sequences; the claim ranges over every sequence and every size.", "anchors": ["structs/djset.hpp: Djset::find, join"]}
{"id": "C08", "title": "Union by rank increments the wrong object's rank", "statement": "Because join increments the rank of the receiver instead of the rank of its root, the forest depth is not logarithmic: for every k there is a sequence of joins over 2k+2 objects after which some object is at depth k+1 below its root while every root has rank at most 1. (Defect characterised.)", "quantifier": "all k", "why_tests_cant": "A complexity failure needs adversarial unbounded families.", "anchors": ["structs/djset.hpp: Djset::join line 35"]}
{"id": "C09", "title": "Hash table without interior removal behaves as a multimap", "statement": "Starting from an empty Htbl and applying any sequence of add, clear and removals that hit the head of a chain, find(k) returns an element with key k exactly when one has been added and not removed, and fill equals the number of elements, across all automatic resizes.", "quantifier": "all key types, all hash functions, all operation sequences", "why_tests_cant": "Tests run a handful of operation sequences; the claim ranges over every sequence and every size.", "anchors": ["structs/htable.hpp: Htable::add, find, rm, clear, resize"]}
{"id": "C10", "title": "Hash table rm does not unlink interior chain elements", "statement": "Removing an element that is not at the head of its chain returns it and decrements fill, but leaves it in the table: find still returns it. (Defect characterised.)", "quantifier": "every table whose searched key is not at the head of its chain", "why_tests_cant": "The shipped test uses tables where removal mostly hits chain heads.", "anchors": ["structs/htable.hpp: Htable::rm line 94"]}
{"id": "C11", "title": "Closed list is a faithful map from states to nodes", "statement": "Starting from an empty ClosedList and adding nodes with pairwise different states, for any hash function compatible with state equality, find(k) returns the node whose state equals k if present and NULL otherwise; remove(k) deletes exactly that node; getFill is the number of nodes; all across automatic resizes.", "quantifier": "all state types, all hash functions, all add/find/remove/resize/clear sequences", "why_tests_cant": "Tests run a handful of operation sequences; the claim ranges over every sequence and every size.", "anchors": ["search/closedlist.hpp: ClosedList::add, find, remove, resize, clear, getFill"]}
{"id": "C12", "title": "Closed list iteration visits every node exactly once", "statement": "Iterating from begin() to end() over a ClosedList terminates and yields every contained node exactly once.", "quantifier": "all closed list contents, all hash functions", "why_tests_cant": "Tests run a handful of operation sequences; the claim ranges over every sequence and every size.", "anchors": ["search/closedlist.hpp: ClosedList::iterator"]}
{"id": "C13", "title": "One node cannot be in two closed lists", "statement": "Adding a node that is already in one ClosedList to a second one that uses the same embedded entry (as ARA* does with its inconsistent set) overwrites the first list's chain pointer, so other nodes of the first list may become unreachable: find returns NULL for a state that was added and never removed. (Defect characterised.)", "quantifier": "all closed lists with a colliding chain", "why_tests_cant": "Needs hash collisions plus an ARA* inconsistent node.", "anchors": ["search/arastar.hpp: Arastar::Incons", "search/closedlist.hpp: ClosedList::add"]}
{"id": "C14", "title": "Object pool never hands out a live object twice", "statement": "For any interleaving of get and put where only live objects are put back, Pool::get never returns an object that is currently live, always returns a slot inside an allocated block, and the number of allocated blocks is exactly what the peak number of live objects requires.", "quantifier": "all get/put histories, all block sizes >= 1", "why_tests_cant": "Tests run a handful of operation sequences; the claim ranges over every sequence and every size.", "anchors": ["utils/pool.hpp: Pool::get, put, newblk"]}
{"id": "C15", "title": "k-d tree nearest neighbour is exact", "statement": "For every tree built by any sequence of inserts and every query point, the element returned by nearest is one whose squared distance to the query is minimal among all inserted elements (nothing for an empty tree).", "quantifier": "all dimensions, all insertion sequences, all query points (exact ordered-field arithmetic)", "why_tests_cant": "Tests run a handful of operation sequences; the claim ranges over every sequence and every size.", "anchors": ["structs/kdtree.hpp: KdTree::insert, nearest, sqdist"]}
{"id": "C16", "title": "k-d tree iterator and size account for every element", "statement": "size() equals the number of insertions, and iterating over the tree yields every inserted element exactly once.", "quantifier": "all insertion sequences", "why_tests_cant": "Tests run a handful of operation sequences; the claim ranges over every sequence and every size.", "anchors": ["structs/kdtree.hpp: KdTree::size, iterator"]}
{"id": "C17", "title": "STN accepts exactly the consistent constraint sets and keeps exact bounds", "statement": "Adding a constraint to a Stn returns true exactly when the whole set of accepted constraints plus the new one has a solution (within the clamped number range), and after acceptance the published lower/upper bounds of every time point are the tightest ones implied.", "quantifier": "all networks, all constraint sequences", "why_tests_cant": "Tests run a handful of operation sequences; the claim ranges over every sequence and every size.", "anchors": ["structs/stn.hpp, structs/stn.cc: Stn::add, propagate, proplower, propupper"]}
{"id": "C18", "title": "A rejected STN constraint leaves the network unchanged", "statement": "If Stn::add returns false, bounds and arcs of every node and the undo history are exactly those before the call; undo after a successful add also restores them.", "quantifier": "all networks, all constraints, all add/undo histories", "why_tests_cant": "Tests run a handful of operation sequences; the claim ranges over every sequence and every size.", "anchors": ["structs/stn.cc: Stn::add, undo, addarcs"]}
{"id": "C19", "title": "STN clamped arithmetic never overflows", "statement": "addclamp and subclamp never overflow the machine type for any operands, and agree with the exact result clamped to [-inf, inf].", "quantifier": "all pairs of machine integers", "why_tests_cant": "2^128 operand pairs.", "anchors": ["structs/stn.hpp: addclamp, subclamp"]}
{"id": "C20", "title": "STN equality can answer true for different networks", "statement": "Stn::eq may return true for two networks with different arc sets because each node comparison stops at the first matching arc. (Defect characterised.)", "quantifier": "networks with several arcs per node", "why_tests_cant": "The shipped tests compare networks produced by undo, which are equal.", "anchors": ["structs/stn.cc: Stn::Node::eq"]}
{"id": "C21", "title": "Run-length coding round-trips", "statement": "runlendec(runlenenc(s)) = s for every byte string s, with no read outside the encoded string.", "quantifier": "all byte strings of any length", "why_tests_cant": "Infinitely many strings; runs of 127/128/129 and their combinations are the corner cases.", "anchors": ["utils/encode.cc: runlenenc, runlendec, cntsame"]}
{"id": "C22", "title": "Base64 coding round-trips", "statement": "base64dec(base64enc(s)) = s for every byte string; the encoding has length 4*ceil(n/3) and uses only the MIME alphabet and '='.", "quantifier": "all byte strings", "why_tests_cant": "Infinitely many strings.", "anchors": ["utils/encode.cc: base64enc, base64dec"]}
{"id": "C23", "title": "ASCII-85 encoding is unambiguous", "statement": "ascii85enc is injective: two different byte strings never have the same encoding, and every output character is printable ('!'..'u' or 'z').", "quantifier": "all pairs of byte strings", "why_tests_cant": "Injectivity is a statement about all pairs.", "anchors": ["utils/encode.cc: ascii85enc, digits85"]}
{"id": "C24", "title": "Control strings round-trip for operator indices below 128", "statement": "controlvec(controlstr(v)) = v for every vector of operators below 128; for every value of 128..255 the decoded value differs (sign extension).", "quantifier": "all operator vectors", "why_tests_cant": "Infinitely many vectors.", "anchors": ["gridnav/gridnav.cc: controlstr, controlvec", "traffic/traffic.cc: controlstr, controlvec"]}
{"id": "C25", "title": "Permutation ranks are dense and unique", "statement": "For every array of n distinct values below sz, Ranker::rank is the number of lexicographically smaller such arrays: it is below sz!/(sz-n)!, two arrays have equal rank only if equal, and lexicographic order is preserved (provided sz!/(sz-n)! < 2^64).", "quantifier": "all sz, n <= sz, all arrays of distinct values", "why_tests_cant": "Factorially many arrays for every size.", "anchors": ["utils/rank.cc: Ranker::Ranker, rank"]}
{"id": "C26", "title": "Integer helpers compute their mathematical functions", "statement": "ilog2(v) is the number of significant bits of v (so floor(log2 v)+1, 0 for 0), ipow is exponentiation mod 2^64, and fallfact(x,n) is the falling factorial for n >= 1 but x instead of 1 for n = 0.", "quantifier": "all 32-bit arguments", "why_tests_cant": "2^32 and 2^64 argument spaces.", "anchors": ["utils/math.cc: ilog2, ipow, fallfact"]}
{"id": "C27", "title": "Checked arithmetic is exact where it does not throw", "statement": "safe::add (signed and unsigned) and unsigned safe::mul throw exactly when the mathematical result is out of range and return it otherwise.", "quantifier": "all operand pairs of every width", "why_tests_cant": "2^64 and 2^128 operand pairs.", "anchors": ["utils/safeops.hpp: safe::add, mul"]}
{"id": "C28", "title": "Checked subtraction and signed multiplication miss overflows", "statement": "Unsigned safe::sub accepts a-b with a<b (wrapping silently) and rejects valid differences; signed safe::sub misses a >= 0 with b = MIN at a = 0; signed safe::mul divides by -1 (undefined for MIN) and misses products equal to MAX+1. (Defects characterised exactly.)", "quantifier": "all operand pairs", "why_tests_cant": "The failing pairs are a thin subset.", "anchors": ["utils/safeops.hpp: safe::sub, mul"]}
{"id": "C29", "title": "Random integers stay in the requested closed range", "statement": "Rand::integer(min,max) returns a value v with min <= v <= max for every generator state whenever min <= max and max-min+1 is representable, and every value of the range is produced by some generator output.", "quantifier": "all generator states, all ranges", "why_tests_cant": "2^64 states.", "anchors": ["utils/rand.cc: Rand::integer, bits"]}
{"id": "C30", "title": "Tokenising recovers quoted and unquoted tokens", "statement": "Writing any list of tokens without quote characters, each in quotes and separated by blanks, and reading the line back with tokens() (or repeatedly gettoken) returns exactly that list; a quote without partner is a fatal error.", "quantifier": "all token lists", "why_tests_cant": "Infinitely many lines.", "anchors": ["utils/str.cc: tokens, gettoken, hasprefix"]}
{"id": "C31", "title": "Data file pairs written are read back", "statement": "A key/value pair written by dfpair and read by dfread is delivered with the same key and value whenever neither contains a quote, newline or NUL, except exactly when header plus value length equals the internal buffer size: then the last character of the value is lost. (Exception characterised.)", "quantifier": "all keys and values", "why_tests_cant": "The off-by-one hits only one total length.", "anchors": ["utils/datafile.cc: dfpair, dfpair_sz, dfread", "utils/str.cc: gettoken"]}
{"id": "C32", "title": "Path splitting and joining are inverse", "statement": "For a relative or absolute path dir/base with non-empty slash-free base and dir not ending in '/', dirname returns dir and basename returns base; pathcat(dirname p, basename p) = p.", "quantifier": "all such path strings", "why_tests_cant": "Infinitely many paths.", "anchors": ["utils/fs.cc: dirname, basename, pathcat"]}
{"id": "C33", "title": "commas groups digits without changing the number", "statement": "commas returns the decimal representation with a comma after every third digit from the right: deleting commas gives back the original text.", "quantifier": "all integers", "why_tests_cant": "Infinitely many lengths.", "anchors": ["utils/testing.cc: commas"]}
{"id": "C34", "title": "A* solutions are real", "statement": "If A* reports a solution, its operators (applied in reported reverse order from the initial state) are applicable, lead exactly through the reported states to a goal state, and cost exactly the goal node's g value.", "quantifier": "all domains with non-negative costs, all heuristics, all instances, every tie-breaking", "why_tests_cant": "Ranges over all domains, graphs and heuristics.", "anchors": ["search/astar.hpp: Astar::search, expand, considerkid", "search/search.hpp: solpath"]}
{"id": "C35", "title": "A* is optimal with an admissible heuristic", "statement": "If the heuristic never overestimates the cheapest cost to a goal, no solution of the problem is cheaper than the one A* reports - including with inconsistent heuristics, thanks to re-opening.", "quantifier": "all domains with non-negative costs, all admissible heuristics, all solutions of any length", "why_tests_cant": "Optimality compares with all paths, of unbounded length.", "anchors": ["search/astar.hpp: Astar::search, considerkid"]}
{"id": "C36", "title": "A* is complete and terminates on finite spaces", "statement": "On a finite reachable state space with positive costs and no limit, A* terminates, and it reports no solution only if no goal is reachable.", "quantifier": "all finite state spaces", "why_tests_cant": "Termination and exhaustive search over all graphs.", "anchors": ["search/astar.hpp: Astar::search, expand, considerkid"]}
{"id": "C37", "title": "Search limits are respected", "statement": "With an expansion limit L > 0 a best-first search performs at most L expansions; with a generation limit G > 0 it stops no later than after the expansion in which the generated count reached G.", "quantifier": "all limits, domains and instances", "why_tests_cant": "All executions.", "anchors": ["search/search.hpp: Limit::reached, SearchAlgorithm::limit", "search/astar.hpp: Astar::search"]}
{"id": "C38", "title": "Parent-operator pruning never loses a better path", "statement": "Skipping the operator equal to the node's reverse operator never changes A*'s guarantees provided the reverse operator leads back to the parent state at non-negative cost.", "quantifier": "all domains whose revop is a true reverse", "why_tests_cant": "All graphs.", "anchors": ["search/astar.hpp: Astar::expand"]}
{"id": "C39", "title": "Weighted A* is w-admissible", "statement": "With weight w >= 1 and an admissible heuristic, a solution reported by weighted A* costs at most w times the cheapest solution.", "quantifier": "all domains, admissible heuristics, weights", "why_tests_cant": "Bound against all paths.", "anchors": ["search/wastar.hpp: Wastar::search, considerkid"]}
{"id": "C40", "title": "Greedy search solutions are real and found when reachable", "statement": "Greedy best-first search reports only valid solution paths, terminates on finite spaces and reports a solution whenever a goal is reachable (no limit).", "quantifier": "all finite domains, all heuristics", "why_tests_cant": "All graphs and heuristics.", "anchors": ["search/greedy.hpp: Greedy::search, considerkid"]}
{"id": "C41", "title": "IDA* is optimal with an admissible heuristic", "statement": "If IDA* reports a solution its path is valid and no solution is cheaper, for admissible heuristics.", "quantifier": "all domains with non-negative costs", "why_tests_cant": "All graphs.", "anchors": ["search/idastar.hpp: Idastar::search, dfs"]}
{"id": "C42", "title": "IDA* never terminates on an unsolvable finite problem", "statement": "When no goal is reachable and there is no limit, IDA* repeats bounded depth-first searches forever; each time its search tree is exhausted the bound falls back to -1 and the whole sequence of bounds starts over. (Defect characterised.)", "quantifier": "all unsolvable finite trees", "why_tests_cant": "Non-termination cannot be observed by a test.", "anchors": ["search/idastar.hpp: Idastar::search"]}
{"id": "C43", "title": "Beam search solutions are real", "statement": "A path reported by beam search is a valid solution, for any width and also with -dropdups. Without -dropdups, rediscovering a discarded node more cheaply uses a stale index and can abort the search; with -dropdups it always survives and terminates on a finite state space.", "quantifier": "all domains, beam widths", "why_tests_cant": "All graphs.", "anchors": ["search/beam.hpp: BeamSearch::search, considerkid"]}
{"id": "C44", "title": "ARA* incumbents strictly improve and stay within their bound", "statement": "Every new incumbent of ARA* is strictly cheaper than the previous one and every reported path is a solution costing at most the reported cost. With a non-negative consistent heuristic the printed suboptimality bound is an upper bound for the ratio of the reported cost to the optimal cost (the printed bound 0 standing for optimal), bounds below the weight are valid for admissible heuristics too. In a finite space without limits the search terminates and the last incumbent is optimal. The printed bound 0, a positive converged flag under a limit, a cost larger than the path's, and a wrong bound with an inconsistent heuristic do occur.", "quantifier": "all domains, weight schedules, heuristics, limits", "why_tests_cant": "All graphs and all weight schedules.", "anchors": ["search/arastar.hpp: Arastar::search, improve, findbound, considerkid, updateopen, nextwt"]}
{"id": "C45", "title": "An RTA* step commits to the best child and stores the next best value", "statement": "An RTA* step moves to a child minimising edge cost plus stored or looked-ahead value and stores at the current state the smallest value above that (none if there is no such value); with a consistent heuristic the lookahead value is the least g+h on the depth-limited frontier and stored values do not fall below the heuristic; with an admissible one it never exceeds the cost of a path to a goal that does not backtrack at once. A returned path leads from the start to a goal. Exceptions that do occur: each step also overwrites the value of the start state with that of the current state, the start state is evaluated wrongly as a child, and because tied children store no value the search can run forever on a finite undirected graph with positive costs.", "quantifier": "all domains, heuristics, lookahead depths, stored values, limits, random draws", "why_tests_cant": "All graphs and unbounded runs.", "anchors": ["search/rtastar.hpp: Rtastar::search, bestkids, heuristic, look, storenode, better"]}
{"id": "C46", "title": "LSS-LRTA* learning preserves consistency and never lowers h", "statement": "The Dijkstra-style heuristic update of LSS-LRTA* raises the local heuristic values to the minimum over frontier nodes of path cost plus heuristic, never lowers a consistent heuristic, and keeps it consistent.", "quantifier": "all local search spaces", "why_tests_cant": "All graphs.", "anchors": ["search/lsslrtastar.hpp: Lsslrtastar::hCostLearning"]}
{"id": "C47", "title": "Tile moves are undone exactly", "statement": "For every sliding-tile state and applicable move, destroying the edge restores the original state (tiles, blank, heuristic), and the reverse operator applied to the successor gives back the original state.", "quantifier": "all board sizes, states and moves", "why_tests_cant": "16!/2 states.", "anchors": ["tiles/mdist.hpp: TilesMdist::Edge", "tiles/tiles.cc: initops"]}
{"id": "C48", "title": "The incremental Manhattan distance is exact", "statement": "After any sequence of moves the incrementally maintained heuristic equals the Manhattan distance recomputed from scratch, it is 0 exactly at the goal, changes by exactly 1 per move, and is therefore a lower bound on the number of moves to the goal.", "quantifier": "all board sizes, all states, all move sequences", "why_tests_cant": "All states and sequences.", "anchors": ["tiles/mdist.cc: initmd, initincr", "tiles/mdist.hpp: Edge, isgoal"]}
{"id": "C49", "title": "Packed tile states are faithful", "statement": "Packing and unpacking a 15-puzzle state is the identity (tiles, blank, heuristic), so equal packed states mean equal states.", "quantifier": "all permutations of up to 16 tiles", "why_tests_cant": "16! states.", "anchors": ["tiles/packed.hpp: PackedTiles64::pack, unpack_md"]}
{"id": "C50", "title": "Legal moves preserve the generator's solvability parity", "statement": "On boards with odd width or equal sides, legal moves preserve the result of the generator's solvability test, so that every board that can be brought to the goal passes it; on every other board size with even width the test rejects some board reachable from the goal.", "quantifier": "all board sizes, all reachable states", "why_tests_cant": "All move sequences.", "anchors": ["tiles/generator.cc: solvable"]}
{"id": "C51", "title": "Pancake flips are involutions and the incremental gap count is exact", "statement": "Applying the same flip twice restores the stack; the incrementally updated gap heuristic equals the recomputed one after any flip sequence.", "quantifier": "all stack sizes, all flips", "why_tests_cant": "N! stacks.", "anchors": ["pancake/pancake.hpp: State::flip, Edge, ngaps"]}
{"id": "C52", "title": "The gap heuristic is consistent and zero exactly at the sorted stack", "statement": "Each flip changes the gap count by at most one, and it is zero exactly for the sorted permutation, so it is an admissible heuristic for unit costs.", "quantifier": "all stack sizes, all permutations", "why_tests_cant": "N! stacks.", "anchors": ["pancake/pancake.hpp: ngaps, gap, isgoal, h"]}
{"id": "C53", "title": "In-place edges break duplicate detection", "statement": "Because a Pancake edge modifies the parent's stored state while the closed list is consulted, a child that hashes to the parent's bucket is reported as a duplicate of its own parent and dropped, and a resize during insertion files the parent under the child's hash so it can no longer be found. (Defect characterised.)", "quantifier": "all hash tables/stacks where the parent and child share a bucket, or a resize occurs", "why_tests_cant": "Happens once in tens of millions of insertions.", "anchors": ["pancake/pancake.hpp: Edge, unpack", "search/astar.hpp: considerkid", "search/closedlist.hpp: find, resize"]}
{"id": "C54", "title": "Grid moves never leave the map", "statement": "From a start cell inside the map, every sequence of applicable moves stays on in-bounds, non-border passable cells, so no terrain or index access is out of range.", "quantifier": "all maps, move sets and sequences", "why_tests_cant": "All maps and sequences.", "anchors": ["gridnav/gridmap.hpp: GridMap::ok, flagsok", "gridnav/gridmap.cc: setsize, setoctile, seteightway, setfourway", "gridnav/gridnav.hpp: Operators, Edge"]}
{"id": "C55", "title": "Grid reverse operators are exact", "statement": "The reverse operator table maps each move to the move with opposite displacement, so applying an operator and then its reverse returns to the same cell.", "quantifier": "all move sets, all cells", "why_tests_cant": "All maps.", "anchors": ["gridnav/gridnav.cc: reverseops", "gridnav/gridnav.hpp: Edge"]}
{"id": "C56", "title": "Grid heuristics are admissible", "statement": "Manhattan distance (four-way), octile distance (eight-way) and the two life-cost estimates never exceed the cost of any move sequence to the goal.", "quantifier": "all maps, start and goal cells, all paths", "why_tests_cant": "All paths on all maps.", "anchors": ["gridnav/gridnav.hpp: manhattan, octiledist, life4cheap, life8cheap, Edge"]}
{"id": "C57", "title": "Life-cost heuristic becomes negative on the top row", "statement": "With four-way life costs the estimate is -1 exactly at the cells of the top row when the goal lies in the top row or the row below it - so also at a goal in the top row - although -1 is the value reserved for 'no cost'; all other estimates are not negative. (Defect characterised.)", "quantifier": "all map heights", "why_tests_cant": "Needs goal on the top row.", "anchors": ["gridnav/gridnav.hpp: life4cheap, costfrom, lifecost"]}
{"id": "C58", "title": "Vacuum heuristic is admissible", "statement": "The vacuum heuristic never exceeds the number of actions in any plan that cleans all remaining dirt.", "quantifier": "all maps, dirt sets and plans", "why_tests_cant": "All plans.", "anchors": ["vacuum/vacuum.hpp: h, Edge, isgoal"]}
{"id": "C59", "title": "Vacuum heuristic reads out of bounds at every goal state", "statement": "Evaluating h on a state with no dirt left reads one element past the dirt location array; with an instance without dirt this is a null dereference. (Defect characterised.)", "quantifier": "all goal states", "why_tests_cant": "The out-of-bounds value cancels out arithmetically, so tests see 0.", "anchors": ["vacuum/vacuum.hpp: h"]}
{"id": "C60", "title": "Dock-robot edges are undone exactly", "statement": "For every well-formed state (piles and cranes sorted, boxes distinct) and every generated operator, destroying the edge restores the original state, and the number of misplaced boxes kept incrementally equals the recomputed one.", "quantifier": "all instances, states and operators", "why_tests_cant": "All configurations.", "anchors": ["drobot/drobot.cc: Edge::apply, Operators, Loc::push, pop, addcrane, rmcrane, State::State"]}
{"id": "C61", "title": "Dock-robot states pack and unpack faithfully", "statement": "unpack(pack(s)) = s for every well-formed state, so equal packed states mean equal states.", "quantifier": "all instances and states", "why_tests_cant": "All configurations.", "anchors": ["drobot/drobot.cc: pack, unpack"]}
{"id": "C62", "title": "Unsorted initial piles break dock-robot edges", "statement": "The instance reader keeps piles in file order; if they are not sorted by bottom box, applying a generated push fails its internal assertion or yields a reverse operator that does not restore the state. (Defect characterised.)", "quantifier": "all instances with an inversion", "why_tests_cant": "Generated instances happen to be sorted.", "anchors": ["drobot/drobot.cc: DockRobot(FILE*), Edge::apply", "drobot/drobot.hpp: findpile"]}
{"id": "C63", "title": "Dock-robot shortest path table is a lower bound", "statement": "The Floyd-Warshall table computed at start-up gives, for every pair of locations, the cost of a cheapest route: no route is cheaper and a route of that cost exists; the hop-count component, however, can be wrong because the comparison uses the cost.", "quantifier": "all adjacency matrices with non-negative costs, all routes", "why_tests_cant": "All routes of any length.", "anchors": ["drobot/drobot.cc: initheuristic"]}
{"id": "C64", "title": "Segment operators reverse exactly and their printed form is read back", "statement": "Applying a segment operator and then its reverse restores all poses; the incremental count of misplaced segments equals the recomputed one; scanops of the printed operator string returns the operator list.", "quantifier": "all instances, states, operator lists", "why_tests_cant": "All lists.", "anchors": ["segments/segments.cc: Edge::Edge, Oper::reverse, pathcost, scanops, wrapind"]}
{"id": "C65", "title": "Traffic obstacles stay inside the grid and move continuously", "statement": "For every time step the position computed for an obstacle is inside the grid, and in one step it moves by at most its speed in each axis; a grid with one row or column divides by zero.", "quantifier": "all obstacles, grids with both sides >= 2, all times", "why_tests_cant": "Unbounded time.", "anchors": ["traffic/gridmap.hpp: Obstacle::positionAt"]}
{"id": "C66", "title": "Traffic heuristic is not admissible because of teleports", "statement": "Moving into an obstacle teleports to the start, which can be nearer to the goal, so the Manhattan estimate can exceed the true remaining cost. (Defect characterised.) A* started in the initial state nevertheless returns a cheapest plan, and finds one whenever there is one although time makes the state space infinite; on an unsolvable instance it can run for ever.", "quantifier": "grids with an obstacle", "why_tests_cant": "Needs a special obstacle position.", "anchors": ["traffic/traffic.hpp: Edge, computeh"]}
{"id": "C67", "title": "RDB attribute lists are duplicate-free FIFO maps", "statement": "After any sequence of push_back, push_front, pop_front and rm, keys are distinct, size is their number, lookup/mem agree with the last accepted insertion, and iteration order is insertion order at both ends.", "quantifier": "all operation sequences", "why_tests_cant": "Tests run a handful of operation sequences; the claim ranges over every sequence and every size.", "anchors": ["rdb/rdb.hpp: RdbAttrs", "rdb/rdb.cc: push_back, push_front, rm"]}
{"id": "C68", "title": "RDB paths can be found again", "statement": "A file stored at the path returned by pathfor for an attribute list is returned by withattrs for any sub-list of its attributes, and pathattrs of that path returns the attributes. pathfor returns a path that spells the attributes (with further keys set to UNSPECIFIED) or stops with an error because a stored file is in the way; withattrs lists, once each, exactly the files none of whose attributes differ from the query; results with different attributes get different paths. Defects: a file that lacks a queried attribute is listed; the path for fewer attributes can be a directory; a database whose own path contains KEY= is never found.", "quantifier": "all directory trees, attribute lists", "why_tests_cant": "All file system states.", "anchors": ["rdb/rdb.cc: pathfor, makepath, withattrs, collect, addfiles, pathattrs, getkey"]}
{"id": "C69", "title": "The anytime monitor's policy is optimal for its profile", "statement": "For every profile, the computed value of each (cost, time) bin is the best expected utility over all stopping policies (including those that use the whole history), and the stored decision attains it; asked about a cost and time in the range of the data, the monitor answers with the decision of the bin they fall in.", "quantifier": "all profiles with at least two time bins, all stopping policies", "why_tests_cant": "All policies.", "anchors": ["search/anyprof/profile.cc: AnytimeMonitor::AnytimeMonitor"]}
{"id": "C70", "title": "Profile probabilities are normalised", "statement": "After training, for each incumbent cost bin and time step the probabilities of the next cost bins sum to one and are zero for worse bins (whenever at least one solution was seen); they are the observed frequencies, smoothed by half the least observed one and renormalised.", "quantifier": "all solution streams", "why_tests_cant": "All training data.", "anchors": ["search/anyprof/profile.cc: mkprobs, countsolutions"]}
{"id": "C71", "title": "Plat2d accepts a level exactly if it has one start, one goal and is not taller than wide", "statement": "The start and goal found are the only start tile and the only goal tile of the level; a level is accepted exactly if there is one of each and its height does not exceed its width. A level that is taller than wide is refused as having several starts even if it has one. (Defect characterised.)", "quantifier": "all levels", "why_tests_cant": "Shipped levels are wider than tall; the claim ranges over every size and content of a level.", "anchors": ["plat2d/plat2d.cc: Plat2d::Plat2d"]}
{"id": "C72", "title": "A* and IDA* solve sliding-tile puzzles optimally, end to end", "statement": "On a board of any size and from any arrangement, A* with the Manhattan heuristic ends with a sequence of legal moves to the goal that is as short as any, or reports failure only if the goal cannot be reached; IDA* finds such a sequence whenever one exists; the cost printed is the number of moves and no assertion made while computing it fails.", "quantifier": "all board sizes, all start arrangements, all open lists meeting their contract", "why_tests_cant": "The 15 puzzle has 16!/2 states.", "anchors": ["tiles/mdist.hpp: TilesMdist", "tiles/mdist.cc: pathcost", "search/astar.hpp: Astar::search", "search/idastar.hpp: Idastar::search"]}
{"id": "C73", "title": "IDA* sorts every pancake stack with as few flips as possible", "statement": "For every number of cakes and every stack, IDA* with the gap heuristic ends and reports a shortest sequence of flips that sorts the stack; the cost printed is the number of flips and no assertion made while computing it fails.", "quantifier": "all numbers of cakes, all stacks", "why_tests_cant": "N! stacks.", "anchors": ["pancake/pancake.hpp: Pancake", "pancake/pancake.cc: pathcost", "search/idastar.hpp: Idastar::search"]}
{"id": "C74", "title": "A* navigates every grid map optimally", "statement": "For every map (random, Ruml or Sturtevant format), every move set, unit costs or eight-way life costs, and every pair of start and goal cells inside the map, A* ends; it reports a cheapest sequence of moves and pathcost of it is its exact cost, or it reports failure only if the goal cannot be reached.", "quantifier": "all maps, move sets, start and goal cells, all open lists meeting their contract", "why_tests_cant": "All maps and paths.", "anchors": ["gridnav/gridnav.hpp: GridNav", "gridnav/gridnav.cc: pathcost, reverseops", "gridnav/gridmap.cc: GridMap loaders", "search/astar.hpp: Astar::search"]}
{"id": "C75", "title": "The vacuum's Charge operator ends the program", "statement": "In every state that can arise, the Charge operator is offered exactly at charger cells, and building its edge (and no other offered operator's edge) ends the program, so a search on an instance with a charger aborts as soon as it expands a state on one. (Defect characterised.)", "quantifier": "all instances, all reachable states", "why_tests_cant": "All maps; no shipped instance has chargers.", "anchors": ["vacuum/vacuum.hpp: Operators, Edge"]}
{"id": "C76", "title": "A* cleans every vacuum instance with a shortest plan", "statement": "On every instance without chargers A* ends; it reports a shortest plan that removes all dirt and pathcost accepts it and returns its length, or it reports failure only if no plan exists. The value of the stray read at goal states does not matter.", "quantifier": "all instances without chargers, all stray values, all open lists meeting their contract", "why_tests_cant": "All maps and plans.", "anchors": ["vacuum/vacuum.hpp: Vacuum", "vacuum/vacuum.cc: Vacuum::Vacuum, pathcost", "search/astar.hpp: Astar::search"]}
{"id": "C77", "title": "The dock-robot heuristic never overestimates and the count of misplaced boxes decides the goal", "statement": "In every state that can arise in a dock-robot search, h is at most the cost of any plan from that state to a goal, and the goal test holds exactly when every box with a goal location is at that location.", "quantifier": "all instances with non-negative distances, all states, all plans", "why_tests_cant": "All instances; needs induction over plans of any length.", "anchors": ["drobot/drobot.hpp: isgoal, h, d", "drobot/drobot.cc: hd, initheuristic"]}
{"id": "C78", "title": "A* solves every dock-robot instance with a cheapest plan", "statement": "On every dock-robot instance with finite non-negative distances whose initial piles are within the limits and in order, A* ends; it reports a cheapest plan and pathcost accepts it and returns its cost, or it reports failure only if no plan exists.", "quantifier": "all such instances, all open lists meeting their contract", "why_tests_cant": "All instances and plans of any length.", "anchors": ["drobot/drobot.hpp: DockRobot", "drobot/drobot.cc: pathcost, initialstate", "search/astar.hpp: Astar::search"]}
{"id": "C79", "title": "Making a node inconsistent damages ARA*'s closed list", "statement": "When ARA* records a closed state as inconsistent, every state that the closed list keeps behind it in the same hash bucket, and that has not itself been recorded as inconsistent, stops being known as closed, so that a second node is made when it is reached again; lookups still terminate and other buckets are not affected.", "quantifier": "all sequences of insertions, inconsistent marks and clears that do not make a table grow; all hash functions", "why_tests_cant": "Needs hash collisions between particular states of a 30000001 bucket table, in a particular order.", "anchors": ["search/arastar.hpp: Incons::add, Node::closedent, considerkid", "search/closedlist.hpp: ClosedList::add, find"]}
{"id": "C80", "title": "LSS-LRTA* reaches a goal", "statement": "In a finite state space where a goal can be reached from every state, every step has a positive cost and the heuristic is consistent, LSS-LRTA* without limits and without -onestep ends with a valid path to a goal, however few nodes each lookahead expands (at least one). With a dead end, or a lookahead of zero nodes, it aborts on an assertion instead; with -onestep and lookaheads of varying size it may go back and forth for ever.", "quantifier": "all finite domains, consistent heuristics, lookahead schedules and start states", "why_tests_cant": "Termination of a real-time search is a statement about unboundedly many interleaved lookaheads and value updates; a test shows single runs only.", "anchors": ["search/lsslrtastar.hpp: LssLRTAStar::search, expandLss, hCostLearning, move"]}
{"id": "C81", "title": "Segments heuristic is admissible but not consistent", "statement": "The heuristic never exceeds the cost of any plan that takes all segments to their goals (distances of the gripper, octile distances and rotations as real numbers), the distance estimate never exceeds the number of its operators, and the heuristic can drop by more than the cost of a step, so it is not consistent.", "quantifier": "all instances, states and plans whose coordinates fit an int", "why_tests_cant": "All plans; the gripper's distance is a minimum over the misplaced segments, and the minimum jumps when a placed segment is moved away.", "anchors": ["segments/segments.cc: h, d, Oper::cost, Edge::Edge, operators"]}
{"id": "C82", "title": "Segments workspaces are bounded by the wrong lines", "statement": "A problem read from a file is bounded by the rectangle with width and height swapped (right only for squares); a generated problem has no left bound and a diagonal bound across its workspace. (Defect characterised.)", "quantifier": "all widths and heights", "why_tests_cant": "Tests with square workspaces pass; the claim ranges over every size and every point of the border.", "anchors": ["segments/segments.cc: Segments::Segments"]}
{"id": "C83", "title": "A-star needs its heuristic only along one solution, and copes with infinite spaces", "statement": "A* and weighted A* return a solution within their bound (cost, or w times cost) of every solution along which the heuristic is a lower bound on the rest of that solution, even if the heuristic overestimates elsewhere; if every operator costs at least 1 and one such solution exists, they find a solution even though infinitely many states are reachable. Greedy search has no such guarantee: it can run for ever past a goal one step away.", "quantifier": "every domain, heuristic, open list, start state, and run of the search, with no bound on the number of states", "why_tests_cant": "tests run finite instances with admissible heuristics; domains such as traffic have infinitely many states (time is part of the state) and a heuristic that overestimates where a collision would send the robot back", "anchors": ["search/astar.hpp: Astar::search", "search/greedy.hpp: Greedy::search", "traffic/traffic.hpp: State, Edge"]}
{"id": "C84", "title": "Traffic moves follow the rules of the game", "statement": "In every state that can be reached from the start, the operators offered are exactly the moves (or waiting) that stay in the grid and do not swap cells with an obstacle; applying one costs 1 and leads to the neighbouring cell one time step later, or back to the start at time 0 if an obstacle is in that cell then; no division, array access or assertion goes wrong; and replaying the operators of a reported plan confirms its cost and prints the controls in order. (Defect: the identity operator reads beyond the move table.)", "quantifier": "all grids with at least two rows and columns, all obstacle lists, all reachable states and times", "why_tests_cant": "Time is unbounded and obstacles interact with every cell at every time.", "anchors": ["traffic/gridmap.hpp: GridMap::ok", "traffic/traffic.hpp: Operators, Edge, ident", "traffic/traffic.cc: pathcost, initialstate"]}
{"id": "C85", "title": "Attributes on a command line are read as written", "statement": "attrargs of arguments \"w1 ... wn=value\" yields the key \"w1 ... wn\" (words joined by single spaces) with exactly that value, which may contain further '=' and spaces; of several values for one key the first counts; words after the last '=' are dropped; the value may also be an argument of its own that begins with '='. A first argument that begins with '=' is undefined behaviour.", "quantifier": "all argument vectors", "why_tests_cant": "All argument vectors of any length and all strings.", "anchors": ["rdb/rdb.cc: attrargs, frontpair"]}
{"id": "C86", "title": "The plat2d player never enters a wall or leaves the level", "statement": "From the start of every accepted level whose border is made of walls, whatever sequence of controls is applied: every move ends, reads tiles of the level only, the player's box never overlaps a wall tile and stays within the border, a single action moves it at most 3.25 pixels horizontally and 12.25 vertically, and the goal test says whether the center of the box is in the goal tile.", "quantifier": "all levels enclosed by walls, all sequences of controls", "why_tests_cant": "Unbounded sequences of controls through arbitrary arrangements of walls and water; each move is a loop of pixel steps with collisions on both axes.", "anchors": ["plat2d/body.cc: Body::move, step, dofall, tillwhole", "plat2d/lvl.cc: Lvl::isect, hitzone", "plat2d/player.cc: Player::act, xvel, chngjmp", "plat2d/plat2d.hpp: isgoal"]}
{"id": "C87", "title": "Plat2d edges never fail their assertions in levels without water", "statement": "In accepted, enclosed levels without water tiles no edge ever fails the assertions about the distances moved, in any reachable state and for any operator, and edges lead where the player's actions do. With water the assertion on the vertical distance can fail in a reachable state. (Defect characterised.)", "quantifier": "all dry enclosed levels, all sequences of operators", "why_tests_cant": "The maximal speed is an invariant of all executions; reaching the excess speed needs one particular drop height and exit from water.", "anchors": ["plat2d/plat2d.hpp: Edge::Edge, Maxy", "plat2d/body.cc: Body::dofall"]}
{"id": "C88", "title": "Plat2d operators cover all controls except letting go of the jump button", "statement": "In every reachable state each combination of controls that steers in one direction, or presses jump, or is applied while a jump is impossible has the same effect as one of the operators offered. Missing is only releasing the jump button without steering, whose effect no operator has in some reachable states. The reverse operator reported for a left or right step need not lead back to the same state, so that pruning on it loses states. (Defects characterised.)", "quantifier": "all enclosed levels, all reachable states, all combinations of controls", "why_tests_cant": "All reachable states of an unbounded game; physics state (speed, falling, jump frames) is invisible in positions.", "anchors": ["plat2d/plat2d.hpp: Operators, Edge", "plat2d/player.hpp: canjump", "plat2d/player.cc: act"]}
{"id": "C89", "title": "Packing plat2d states loses nothing", "statement": "In every state reachable by any sequence of controls, unpacking the packed state gives the state back, so that two reachable states have equal packed forms exactly if they are equal.", "quantifier": "all enclosed levels, all pairs of reachable states", "why_tests_cant": "The falling flag shares a byte with the jump counter; that the counter never reaches the flag's bit is an invariant of all executions.", "anchors": ["plat2d/plat2d.hpp: pack, unpack, PackedState"]}
{"id": "C90", "title": "Plat2d level files are read as drawn", "statement": "A file with the announced number of rows of the announced number of valid characters is read as the level with the tile drawn in each row and column, and no other file is accepted.", "quantifier": "all files, all sizes whose product fits 32 bits", "why_tests_cant": "All files of all sizes; transposing rows and columns is invisible for square symmetric levels.", "anchors": ["plat2d/lvl.cc: Lvl::Lvl, read", "plat2d/tile.cc: Tile::read"]}
{"id": "C91", "title": "IDA* keeps to its limits", "statement": "IDA* makes no more expansions than its expansion limit, generates no more states than its generation limit and does neither once the time limit has fired; if it ends without a solution, one of the limits was reached.", "quantifier": "all domains, heuristics, limits and moments at which the time limit fires", "why_tests_cant": "All executions; the checks sit in a recursion that unwinds through many frames.", "anchors": ["search/idastar.hpp: Idastar::search, dfs", "search/search.hpp: Limit::reached"]}
{"id": "C92", "title": "Reported search counters fit together", "statement": "For the counters a best-first search reports: generated + 1 = number of distinct states met + duplicates; expansions are at most distinct states + reopened, with equality when the open list ran empty; reopened <= duplicates; nothing is reopened when duplicates are dropped; all states met are reachable and pairwise different.", "quantifier": "all domains, priorities, open lists, limits and moments at which the search ends", "why_tests_cant": "All executions.", "anchors": ["search/astar.hpp: considerkid, expand", "search/wastar.hpp: considerkid", "search/greedy.hpp: considerkid", "search/search.hpp: SearchResult"]}
{"id": "C93", "title": "A* with a consistent heuristic expands each state at most once", "statement": "If the heuristic drops along no edge by more than its cost, A* reports no reopened nodes and at most as many expansions as there are reachable states.", "quantifier": "all domains, consistent heuristics, open lists and limits", "why_tests_cant": "All graphs; depends on the order in which the open list returns nodes.", "anchors": ["search/astar.hpp: Astar::search, considerkid", "search/search.hpp: OpenList"]}
{"id": "C94", "title": "The letters of a Sturtevant map say where one can go", "statement": "On a loaded Sturtevant map each cell has one of the seven letters; a step into out-of-bounds or tree cells is never allowed, from water only water can be entered, from anywhere else only ground and swamp; exactly the ground cells are accepted as start or goal.", "quantifier": "all maps that load and all pairs of cells", "why_tests_cant": "All maps; combinations of terrain at corners are rare.", "anchors": ["gridnav/gridmap.cc: loadsturtevant", "gridnav/gridmap.hpp: flagsok, blkd"]}
{"id": "C95", "title": "The hash of a byte array depends on its bytes only", "statement": "hashbytes returns an unsigned 64-bit number that is a function of the bytes of the key: the alignment of the address (which selects one of three loops reading 32, 16 or 8 bits at a time) and the bytes behind the key (which the masked 32-bit reads do look at) never change it. Its mixing steps lose no information: different internal states stay different.", "quantifier": "for all memory contents, addresses, lengths, and all pairs of internal states", "why_tests_cant": "A test hashes a few keys at a few alignments; the claim is about all keys, all surroundings and all lengths, and a table lookup fails silently if the hash of equal states differs.", "anchors": ["utils/hash.c: hashbytes, hashlittle2, mix, final", "utils/utils.hpp: hashbytes"]}
{"id": "C96", "title": "BUGSY is sound and complete whatever utilities it is told", "statement": "Running bugsy or bugsy-slim, with any options and any readings of the clock: a path it reports is a solution of the problem, that it reports none without limits means that there is none, it ends whenever finitely many states can be reached, it never trips over its own data structures, and it respects the expansion, generation and time limits.", "quantifier": "all domains with non-negative costs and truthful reverse operators, start states, weights, options, estimates (also nonsensical ones) and clocks", "why_tests_cant": "The open list is rebuilt with new keys while the search runs, from measured times; a test sees one clock and one machine.", "anchors": ["search/bugsy.hpp:Bugsy::search", "search/bugsy.hpp:Bugsy::reinitheap", "search/bugsy-slim.hpp:Bugsy_slim::search"]}
{"id": "C97", "title": "BUGSY expands the node of highest utility", "statement": "bugsy-slim always, and bugsy unless -noresort is given, expand an open node for which wf times the estimated solution cost plus wt times the estimated remaining time is smallest, under the estimates in use; these change, and the open list is sorted anew, exactly after expansions 128, 256, 512 and so on.", "quantifier": "all running searches of all domains, weights, options and clocks", "why_tests_cant": "A heap whose keys were changed in place still looks right to tests that do not happen to pop the misplaced element.", "anchors": ["search/bugsy.hpp:Bugsy::computeutil", "search/bugsy.hpp:Bugsy::updateopen", "search/bugsy.hpp:Bugsy::reinitheap", "search/bugsy-slim.hpp:Bugsy_slim::computeutil", "search/bugsy-slim.hpp:Bugsy_slim::updateopen"]}
{"id": "C98", "title": "Path maximisation keeps BUGSY's estimates admissible", "statement": "The h and d kept for a node are never below the heuristic's values for its state, f is g + h, and if the heuristics never overestimate the cost, or the number of operators, of a solution, neither do the values kept; where duplicates are dropped no node has a smaller f than the start.", "quantifier": "all nodes of all running searches, in all domains", "why_tests_cant": "The values kept depend on the path by which a node was first reached.", "anchors": ["search/bugsy.hpp:Bugsy::considerkid", "search/bugsy-slim.hpp:Bugsy_slim::expand"]}
{"id": "C99", "title": "BUGSY with a time weight of zero is optimal", "statement": "With -wt 0 and a positive -wf, no -hhat or -hlms, duplicates not dropped, resorting on and an admissible heuristic, the solution bugsy reports is a cheapest one.", "quantifier": "all domains with non-negative costs, admissible non-negative heuristics, other options, clocks and limits", "why_tests_cant": "Optimality is relative to all solutions of a possibly infinite problem.", "anchors": ["search/bugsy.hpp:Bugsy::search", "search/bugsy.hpp:Bugsy::computeutil"]}
{"id": "C100", "title": "-expdelay is without effect when resorting is off", "statement": "With -noresort, giving or not giving -expdelay to bugsy leads to the same solution, the same nodes and the same counters: the delay used in the utility is never set from the one measured (line 314 assigns the other way round).", "quantifier": "all domains, start states, weights, other options, clocks, limits and numbers of rounds", "why_tests_cant": "That an option does nothing cannot be seen from a finite number of runs.", "anchors": ["search/bugsy.hpp:Bugsy::computeutil"]}
{"id": "C101", "title": "A sparse pattern database is a store with one cell per placement", "statement": "For a board and a pattern size whose power (cells to the number of tiles) fits into 32 bits, the sparse pattern database gives every placement of the pattern's tiles its own cost entry inside the array: an entry reads 0 until it is written, and then what was last written for exactly that placement. Beyond 32 bits this fails: on the 4x4 board with nine or more tiles, placements that agree on the first eight tiles share an entry.", "quantifier": "all board sizes and pattern sizes within the bound, all sequences of assignments and all placements; for the negative part all placements of nine or more tiles on 16 cells", "why_tests_cant": "A collision or an index out of range concerns pairs of placements among up to 2^32, and the wrap-around only appears at pattern sizes whose tables need gigabytes.", "anchors": ["tiles/pdb.hpp: SparsePdb::posind, Pdb::poscost", "tiles/pdb.cc: Pdb::Pdb, SparsePdb::SparsePdb"]}
{"id": "C102", "title": "A compact pattern database stores each placement exactly once", "statement": "The compact pattern database gives every placement of the pattern's tiles in different cells its own entry, initially 0, which reads as last written; its array has exactly as many entries as there are placements, as reported by numentries, and every entry belongs to exactly one placement. Looking an entry up by byte-sized positions is the same as by full-sized ones.", "quantifier": "all board sizes below 2^29, all pattern sizes whose number of placements fits into 64 bits, all sequences of assignments and all placements", "why_tests_cant": "Bijectivity of an index over all placements (about 4*10^9 for nine of 16 tiles) cannot be enumerated in a unit test.", "anchors": ["tiles/pdb.hpp: CompactPdb::posind, Pdb::poscost, Pdb::numentries", "tiles/pdb.cc: CompactPdb::CompactPdb", "utils/rank.cc"]}
{"id": "C103", "title": "The components of a grid map are its 8-connected sets of blocked cells", "statement": "Converting a grid map to polygons sorts the blocked cells into components: every blocked cell is in one, two blocked cells are in the same one exactly if a chain of blocked cells, each one of the eight neighbours of the one before, joins them, the start recorded for each component is its lowest leftmost cell, and the first component is the one with the lowest leftmost blocked cell of the map.", "quantifier": "all widths, heights and patterns of blocked cells", "why_tests_cant": "The components depend on the order of all unions and on path compression; only a few patterns can be tried.", "anchors": ["visnav/grid2poly.cc: PolyMap::PolyMap, Comp::add", "structs/djset.hpp: Djset"]}
{"id": "C104", "title": "Every component is traced to the polygon around it", "statement": "Tracing a component ends with a rectilinear polygon of at least four vertices that turns by a right angle at each vertex, has a blocked cell on its right and a free cell on its left all along, and passes over no unit of length twice; by the even-odd rule it encloses exactly the cells that cannot be reached from outside the map by steps up, down, left and right around the component.  Tracing from a start that is entered straight ahead never ends.", "quantifier": "all maps and all their components", "why_tests_cant": "Termination and the enclosed area are facts about walks of unbounded length; the touching of cells by their corners makes many cases.", "anchors": ["visnav/grid2poly.cc: Comp::poly, Comp::clockwise"]}
{"id": "C105", "title": "A framed map becomes its room and its obstacles", "statement": "If all cells along the four sides of the map are blocked, the conversion ends; the bound is the outline of one connected free area inside the component of the frame (the outline of the whole map if there is none) and encloses exactly the cells of that area, obstacles included, and the polygons are the outlines of the other components in order.  Without a closed frame the conversion can run forever (a door in the left side) or return a bound outside the map (a lone blocked cell).", "quantifier": "all maps with a closed frame; two maps without", "why_tests_cant": "The bound is found by a heuristic choice of a start; whether its tracing ends depends on the whole map.", "anchors": ["visnav/grid2poly.cc: Comp::invert, PolyMap::PolyMap", "visnav/polymap.hpp: PolyMap::Bound"]}
{"id": "C106", "title": "Bounding boxes are least and hit exactly when they share a point", "statement": "The box of a list of points, or of two corners given in any order, contains all of them and touches one on each of its four sides; its centre is in it. Two such boxes hit exactly if some point is in both. A box contains a point exactly if the point is in the box widened by the tolerance on all sides. Translating the box gives the least box of the translated points.", "quantifier": "all lists of points with rational coordinates", "why_tests_cant": "Statements about all points of the plane; the four strict and non-strict comparisons matter only at equal coordinates.", "anchors": ["utils/geom2d.hpp: Bbox"]}
{"id": "C107", "title": "Segment intersection finds the common point", "statement": "If two segments are each exactly upright or at least the tolerance wide, are not parallel and have slopes that differ by at least the tolerance, then a point they share is the point reported and the segments hit; a point that is reported lies on both lines and at most the tolerance away from both segments. For segments on one line, an end of the argument that lies on the receiver is found and nothing but such an end. A segment strictly inside another one of the same line is not found from inside (and is found the other way round), and a crossing at slopes closer than the tolerance is missed.", "quantifier": "all pairs of segments with rational end points that keep the stated distances; exact arithmetic", "why_tests_cant": "The branches depend on slopes, on which of the two is upright and on the tolerance; tests try a few pairs.", "anchors": ["utils/geom2d.hpp: LineSg::isect, LineSg::hits, LineSg::within, Line::isect, Line::Line"]}
{"id": "C108", "title": "A polygon encloses a point by the even-odd rule", "statement": "Building a polygon from three or more vertices that do not all agree succeeds; it drops exactly vertices in line with their neighbours until none is left, and keeps the outline, the enclosed points and the bounding box. The polygon contains a point exactly if the rightward ray from the point crosses an odd number of sides, counting a side that the ray meets in its lower end only as not crossed.", "quantifier": "all vertex lists; all points such that every vertex is exactly level with the point or at least the tolerance above or below and every side is level, upright or clearly neither; exact arithmetic", "why_tests_cant": "Parity of crossings over polygons of any size, with rays through vertices and along sides.", "anchors": ["utils/geom2d.cc: Poly::Poly, Poly::contains, Poly::removecolinear, Poly::initsides"]}
{"id": "C109", "title": "Moving and scaling a map moves and scales what is obstructed", "statement": "A point is obstructed exactly if it is not enclosed by the bound or is enclosed by an obstacle; translating a map, or scaling it by positive factors, yields the polygons with all vertices moved, with sides and boxes to match, and a moved point is obstructed in the moved map exactly if it was before.", "quantifier": "all maps of polygons, all offsets, all positive factors; points as in C108", "why_tests_cant": "All maps and points; the cached sides and boxes have to be updated together.", "anchors": ["visnav/polymap.hpp: PolyMap::obstructed", "visnav/polymap.cc: PolyMap::scale, PolyMap::translate", "utils/geom2d.hpp: Poly::scale, Poly::translate"]}
{"id": "C110", "title": "Visible means not cut off", "statement": "If two points are reported visible from each other, the first is contained in the bound and no point of the line between them lies on a side of an obstacle or of the bound (for sides not nearly parallel to the line); if they are not, the first is not contained in the bound or some point is within the tolerance of the line and of a side. The lower corner of a map without a bound is the least x and y of all vertices. The upper corner is not: its y can be below a vertex.", "quantifier": "all maps, all pairs of points; sides as in C107", "why_tests_cant": "All sight lines and all sides; pruning by boxes has to be conservative.", "anchors": ["visnav/polymap.cc: PolyMap::isvisible, PolyMap::min, PolyMap::max", "utils/geom2d.hpp: Poly::hits"]}
{"id": "C111", "title": "The free cells of a converted map are one room", "statement": "For a map whose four sides are blocked, the cells inside the bound and inside no obstacle polygon are exactly the cells that can be reached, by steps up, down, left and right over free cells, from the rightmost free cell of the lowest row that has a free cell.  If the map has no free cell, the bound encloses the whole map and there are no obstacles.", "quantifier": "all maps with a closed frame, all cells", "why_tests_cant": "Enclosure of a cell by many polygons at once, for all maps, against reachability.", "anchors": ["visnav/grid2poly.cc: PolyMap::PolyMap, Comp::invert, Comp::poly"]}
{"id": "C112", "title": "A converted map is obstructed where the grid map is", "statement": "The polygon made of an outline keeps all its corners, and it contains a point in a cell exactly if the outline encloses the cell.  In the polygon map made of a framed grid map a point in a cell is free exactly if the cell is in the room of C111.", "quantifier": "all maps with a closed frame; all points of a cell that are at least the tolerance away from its lower and upper side", "why_tests_cant": "Infinitely many points per cell, and all maps; two ray castings with different tie rules have to agree.", "anchors": ["visnav/grid2poly.cc: PolyMap::PolyMap, Comp::poly", "visnav/polymap.hpp: PolyMap::obstructed", "utils/geom2d.cc: Poly::contains, Poly::removecolinear"]}
{"id": "C113", "title": "A visibility graph is a well-formed undirected graph after any sequence of operations", "statement": "After building a graph from a map and any number of additions of points, scalings and translations: a vertex's id is its position; each edge of a vertex starts there, ends at another existing vertex, and costs the current distance of their points; as many edges lead from a to b as from b to a.  Scaling and translating move all points, keep who is linked to whom, and work whenever the map can be scaled or moved.", "quantifier": "all maps, all sequences of operations, all distances that are symmetric and translation invariant (the last only needed for translate)", "why_tests_cant": "Sequences of operations of any length; costs have to stay right after the points moved.", "anchors": ["visnav/visgraph.cc: VisGraph::build, add, scale, translate, addedge"]}
{"id": "C114", "title": "A visibility graph has the reflex corners as vertices and links exactly what is adjacent or sees each other", "statement": "The vertices are the reflex corners of all polygons, in the order of the obstacles with the bound last; two of them are linked once if they are neighbours on the same polygon and once more if they see each other.  Adding a point links it to exactly the vertices it sees and changes nothing else.  Seeing means: the line from a thousandth of the way to a thousandth before the end meets no polygon and does not start inside the obstacles of its ends; when points do not see each other there is something in the way up to the tolerance.", "quantifier": "all maps, all points", "why_tests_cant": "All pairs of vertices of all maps; the obstacle of a vertex is looked up by a table kept beside the vertices.", "anchors": ["visnav/visgraph.cc: VisGraph::populateverts, addpoly, visedges, consideredge, add", "visnav/polymap.cc: PolyMap::isvisible"]}
{"id": "C115", "title": "Navigation in a visibility graph has a consistent straight-line heuristic", "statement": "Start and goal get vertices of their own with the given points.  Every operator has a way back of the same cost.  The heuristic is zero at the goal, consistent, and never more than the cost of any way to the goal; no solution is shorter than the straight line.  pathcost of a solution is the sum of its operators' costs, and whenever it returns, the states are where the operators lead and end in the goal.", "quantifier": "all graphs of C113, all start and goal points, all ways through the graph", "why_tests_cant": "All ways of any length; the triangle inequality of real distances.", "anchors": ["visnav/visnav.hpp: VisNav::h, Operators, Edge, isgoal", "visnav/visnav.cc: VisNav::VisNav, pathcost"]}
{"id": "C116", "title": "Distances to the goal in the platform game's map are shortest-path distances", "statement": "The table that the platform game computes once holds, for every vertex of its visibility graph, the length of a shortest way from it to the goal's vertex and the next vertex on such a way; vertices from which there is no way have no entry.  The length of an edge is the larger one of the horizontal and the vertical distance in frames: the diagonal term never decides.", "quantifier": "all graphs with non-negative edge lengths and any goal vertex", "why_tests_cant": "All graphs; the queue is updated in place while keys decrease.", "anchors": ["plat2d/plat2d.cc: Plat2d::initvg", "structs/binheap.hpp: BinHeap::push, pop, update"]}
{"id": "C117", "title": "The platform game's heuristic is defined exactly in the room of its map", "statement": "The map covers one room: the tiles joined with the rightmost free tile of the topmost row that has one.  If the goal is in it the map is built and every tile of the room has a vertex at its center, other tiles have none; if not, the constructor fails an assertion whatever the start.  The player never leaves the room of the start; if the goal and the start are in the room of the map the heuristic is defined in every reachable state with a way in the graph, and if the start is elsewhere in none.", "quantifier": "all levels with a border of walls, all sequences of controls", "why_tests_cant": "All levels; the map goes through the conversion to polygons and their visibility graph.", "anchors": ["plat2d/plat2d.cc: Plat2d::initvg", "plat2d/plat2d.hpp: Plat2d::h, hvis", "visnav/grid2poly.cc: PolyMap::PolyMap"]}
{"id": "C118", "title": "The platform game's heuristic is zero exactly at the goal and admissible in sight of it", "statement": "The heuristic is 0 in goal states and at least 1 elsewhere.  Where the goal's tile is in sight it is never more than the number of frames in which any sequence of controls reaches the goal.", "quantifier": "all levels with a border of walls, all reachable states, all sequences of controls", "why_tests_cant": "All sequences of controls of any length.", "anchors": ["plat2d/plat2d.hpp: Plat2d::h, hvis"]}
{"id": "C119", "title": "The platform game's heuristic is admissible where the goal is hidden", "statement": "Also where the goal is not in sight the heuristic is never more than the number of frames in which any sequence of controls reaches the goal.", "quantifier": "all levels with a border of walls, all reachable states, all sequences of controls", "why_tests_cant": "All sequences of controls of any length; needs the visibility graph to know a shortest way around the walls.", "anchors": ["plat2d/plat2d.hpp: Plat2d::hvis", "plat2d/plat2d.cc: Plat2d::initvg"]}
{"id": "C120", "title": "f-hat LRTA* returns a valid walk and its lookahead comes to an end", "statement": "Whatever the heuristic, the distance estimate, the lookahead, the option to move one step and the limits, a path returned by the search with corrected estimates is a walk from the start to a goal with the returned operators.  A lookahead with a bound on the expansions ends without a failed assertion, has only nodes in reach of the current state, and the goal it reports is a goal.", "quantifier": "all domains, heuristics, distance estimates, lookahead bounds, limits and start states; every content of the root's uninitialised estimate", "why_tests_cant": "All domains and all interleavings of the limits with the lookahead; an uninitialised field has no single test value.", "anchors": ["search/fhatlrtastar.hpp: Fhatlrtastar::search, expandLss, move"]}
{"id": "C121", "title": "The errors that correct the estimates are sane", "statement": "Throughout a search the error of h is not negative and the error of d is at least 0 and below 1, so the correction never divides by zero, and with distance estimates that are not negative the corrected value of a node is never below g + h.  The first lookahead is ordered by g + h alone.  Each expansion is observed at a successor of least f, and the errors in use are the sums of the observed errors divided by their number plus one.  Without a goal in sight the search moves to an open state of least corrected value, as long as these values are equal or apart by the tolerance of their comparison; nearer ones are compared in circles.  With goals in sight it heads for the nearest of them, or for the one it has expanded.", "quantifier": "all domains, heuristics, distance estimates, runs and prefixes of runs", "why_tests_cant": "All runs of any length; the averages depend on everything expanded before.", "anchors": ["search/fhatlrtastar.hpp: Fhatlrtastar::expandLss"]}
{"id": "C122", "title": "What f-hat LRTA* learns", "statement": "If no expanded node is open again at the end of a lookahead, then the value of each expanded state with a way out becomes the least cost of a way out plus the value of the open state at its end (or the heuristic if larger), with the distance of that state plus the steps to it; all other values stay.  Consistent values then stay consistent and are never lowered.  If an expanded node is open again the values learned can be inadmissible.", "quantifier": "all domains, consistent or inconsistent values, lookaheads and start states", "why_tests_cant": "All graphs and all contents of the memory.", "anchors": ["search/fhatlrtastar.hpp: Fhatlrtastar::hCostLearning, expandLss"]}
{"id": "C123", "title": "Search limits read from the command line", "statement": "Every command line is a sequence of limits with values and other words. Each of the limits -expd, -gend, -cputime and -walltime of a search is the last value given for it, zero (no limit) if none is given; a value is never mistaken for the name of a limit, and a written number is read as itself up to the largest unsigned long. -mem takes a number with nothing, G, M or K after it, and the program ends with an error exactly if some memory limit is not of that form.", "quantifier": "all command lines, all numbers", "why_tests_cant": "All argument lists.", "anchors": ["search/search.cc: Limit::Limit, Limit::memlimit"]}
{"id": "C124", "title": "The lookahead limit given is the one that is kept", "statement": "The lookahead of a real-time search is the number after the first -lookahead, modulo 2^32, and the program ends with an error if there is none or it is zero. After its start a limit of n expansions says to go on exactly n times and then says stop (until its counter wraps after 2^32 calls). A dynamic limit is made exactly if -dynlss is given, and only with a level and a positive time scale.", "quantifier": "all command lines, all limits, any number of calls", "why_tests_cant": "All argument lists and call sequences.", "anchors": ["search/search.cc: LookaheadLimit::fromArgs", "search/lsslrtastar.hpp: ExpansionLimit"]}
{"id": "C125", "title": "Dynamic lookahead: the table of sizes, the chosen size and the deadline", "statement": "The table made from training files has one entry for each size, in increasing order, with the largest time seen for it, whatever the order of the files; there is an error exactly if no file has a time. The size chosen for a time t is the smallest one that takes the time t or longer (the largest one if none does), not, as the comment says, the largest one that can be searched in t: it overruns unless its time is t exactly. The deadline is the time of the first move plus the time of all moves so far.", "quantifier": "all sets of training files, all times, all sequences of moves", "why_tests_cant": "All tables and times.", "anchors": ["search/lsslrtastar.hpp: MaxTimeLimit::MaxTimeLimit, MaxTimeLimit::maxlss, MaxTimeLimit::start"]}
{"id": "C126", "title": "Time limits mark the search that is running", "statement": "If searches start and finish their limits in turn then no timer kills the process or crashes in its handler, at most one limit with a time runs (a second one is an error), and a timer that runs out marks the limit that is running and no other. A limit that has run out stays so: when a search algorithm is used again its limit is reached at once.", "quantifier": "all sequences of starts, finishes and timer signals, all limits", "why_tests_cant": "All interleavings of signals with the calls.", "anchors": ["search/search.cc: Limit::start, Limit::finish, handletimeout, settimer, stoptimer", "search/search.hpp: Limit::reached"]}
{"id": "C127", "title": "DTA* returns valid paths and its steps end", "statement": "If DTA* returns a path then it is a solution of the instance from the initial state: each operator is applicable, its state is the one the operator leads to, and the last state is a goal. From admissible values a step ends with a move if a goal can be reached and the lookahead limit stops at some time, and no assertion fails in it; from the second step on an assertion can fail, since stored values are scaled by 1.1.", "quantifier": "all domains, heuristics, limits, lookaheads and decisions to go on or to stop", "why_tests_cant": "All graphs, memories and decisions.", "anchors": ["search/dtastar.hpp: Dtastar::search, Dtastar::step, Lss::expand"]}
{"id": "C128", "title": "What DTA* stores and where it moves", "statement": "The value stored for the current state is, times 1.1, the least value of its successors' local searches: the cost of a way over the chosen operator that does not return to the current state plus the value of the open state at its end, no less than the old value, or the cost of a way to a goal. It is at most 1.1 times the cost of any solution plus the error of the values before, or a goal no dearer than that solution has been generated. Without full learning the values of other states are never lowered and stay as close to the true costs as they were. With full learning the value of each other state is at least the cost of some way from it plus the value before the step at the end of that way. Stored values can be inadmissible.", "quantifier": "all domains, memories, limits, lookaheads and decisions to go on", "why_tests_cant": "All graphs and all contents of the memory.", "anchors": ["search/dtastar.hpp: Dtastar::step, Lss::expand, Lss::f, Lss::learn"]}
{"id": "C129", "title": "The goal a local search of DTA* expands", "statement": "When a local search of DTA* has expanded a goal then the goal's g is the cost of a way to it that starts with the operator of that search and does not return to the current state, and no such way to any goal is cheaper by more than the error of the values. Ways that return to the current state can be cheaper.", "quantifier": "all domains, memories, limits, lookaheads and decisions to go on", "why_tests_cant": "All graphs and all contents of the memory.", "anchors": ["search/dtastar.hpp: Lss::expand, Dtastar::step"]}
{"id": "C130", "title": "Random trees grow by applicable operators and give valid paths", "statement": "The nodes of a rapidly exploring random tree are states that can be reached from the initial state: each node but the root is the successor of an earlier one by an applicable operator, no operator is used twice at a node, and none but the root is a goal. If the search ends, its path and operators are a solution with at least one operator, and it never looks for a node that is not there.", "quantifier": "all domains, coordinates of states, sequences of samples and numbers of iterations", "why_tests_cant": "All random sequences and all graphs.", "anchors": ["search/rrt.hpp: RRT::search", "search/search.hpp: solpath", "structs/kdtree.hpp: Kdtree::nearest"]}
{"id": "C131", "title": "How a random tree is extended and when it finds a goal", "statement": "An iteration takes the node nearest to the sample and adds the successor nearest to the sample by an operator not tried there before, nothing if all were tried; it ends the search exactly if one of the untried operators leads to a goal. If samples keep picking each state of the tree then a goal that can be reached by one or more operators is found. If no goal can be reached the search never ends. An initial state that is a goal is not noticed, and the seed given on the command line is not used.", "quantifier": "all domains, coordinates, sequences of samples, command lines", "why_tests_cant": "All random sequences and all graphs.", "anchors": ["search/rrt.hpp: RRT::search, RRT::RRT, RRT::sqdist"]}
{"id": "C132", "title": "Searching again after each step", "statement": "The operators of a restarting search lead from the initial state to a goal or to a state from where the restarted search finds nothing; the states returned are those of that way without the last one. If the restarted search is optimal and operators have positive costs then it ends, with a cheapest solution. With other searches it can go on for ever.", "quantifier": "all domains, all sound searches, all initial states", "why_tests_cant": "All searches and graphs.", "anchors": ["search/restartingsearch.hpp: RestartingSearch::search"]}
{"id": "C133", "title": "The rows dumped about a solution are true", "statement": "The A* that dumps its solution writes one row for each state of the solution. With an admissible heuristic, h* of a row is the cost of a cheapest solution from that state and d* the number of operators of a cheapest one. The program that fits a heuristic reads h, g, d, D and the target from the columns they were written to.", "quantifier": "All domains, admissible heuristics, open lists that are exact priority queues, limits, runs and rows", "why_tests_cant": "A test compares a few rows; optimality at every state of the path is over all the solutions from it", "anchors": ["search/astar-dump.hpp:dumpgoal", "search/learnh/hlms.cc:dfline", "utils/datafile.cc:dfrow"]}
{"id": "C134", "title": "The sample for the fit", "statement": "The fitting program keeps as many records as it was asked for. Whatever is drawn, once enough records were read all its rows are filled, each with a different record. Over all the draws, each of the first sz records is kept with probability (sz+1)/(n+1) and each later one with sz/(n+1). So the sample is not uniform.", "quantifier": "All sample sizes, numbers of records and sequences of draws", "why_tests_cant": "A test sees a few samples; the bias is small and only counting all the draws shows it", "anchors": ["search/learnh/hlms.cc:dfline", "utils/rand.cc:integer"]}
{"id": "C135", "title": "A scenario run checks every entry", "statement": "A scenario run that ends has one row for each entry asked for (all of them, or the one whose number was given), in the order of the file. The cost of a row is that of the operators found, executed from the start of that entry on the map of that entry, and they lead to the goal; it differs from the cost in the file by at most 0.01. With an optimal search it is the cost of a cheapest solution. The run ends if the maps are there, each entry has a solution and the costs in the file are right. The totals are the sums over the rows. An entry without a solution makes the run fail, although the file format allows it.", "quantifier": "All scenario files, maps, searches and choices of an entry", "why_tests_cant": "A test runs a few files; map reuse and the check range over all sequences of entries", "anchors": ["gridnav/scenario.cc:Scenario::run", "gridnav/scenario.cc:ScenarioEntry::run", "gridnav/scenario.cc:getmap", "gridnav/gridnav.cc:pathcost", "search/search.hpp:SearchStats::add"]}
{"id": "C136", "title": "LSS-LRTA* with -complete moves to the last complete layer and still reaches a goal", "statement": "With -complete the path returned is a valid solution. After a lookahead that finds no goal, with consistent values, every state whose cost plus value is below that of every state left open has been expanded; the agent moves to an expanded state of the largest such sum (the largest cost among equals), or to the best open state if there is none. Where a goal can be reached from everywhere, costs are positive and the heuristic is consistent, a goal is reached, however small the lookahead.", "quantifier": "all domains, heuristics, lookahead limits, orders of the hash table, and numbers of moves", "why_tests_cant": "the layer depends on the whole lookahead and on the order in which a hash table is read; that moving to states already expanded cannot go on for ever needs the learning of all moves", "anchors": ["search/lsslrtastar.hpp: Lsslrtastar2::move, expandLss, hCostLearning, search"]}
{"id": "C137", "title": "Adding attributes to a data file", "statement": "The tool that adds attributes to a data file writes, as pairs and in the order given, exactly those attributes whose keys the file does not have yet; it puts them before the first pair and leaves all other lines as they are, so that reading the file gives what it gave before together with the new pairs. Attributes whose keys are present leave the file unchanged, so running it a second time changes nothing. In a file without any pair nothing is added and no error is reported.", "quantifier": "all data files of non-empty lines, all attribute arguments whose pairs fit the writer's buffer", "why_tests_cant": "needs all files and attribute lists; tests try a few", "anchors": ["rdb/addattrs.cc main", "rdb/addattrs.cc dfline", "rdb/rdb.cc RdbAttrs", "utils/datafile.cc dfread", "utils/datafile.cc dfpair"]}
{"id": "C138", "title": "Recognising complete data files", "statement": "The tool that checks whether a data file is complete accepts it exactly if its first line is the start line and its last line is the end line of the format; the newline of the last line may be missing.", "quantifier": "all files of non-empty lines, with or without a newline at the end", "why_tests_cant": "needs all files", "anchors": ["rdb/dfcmplt.cc main", "utils/datafile.cc"]}
{"id": "C139", "title": "The probabilities DTA* is trained with", "statement": "Training on any set of rows whose largest f is not below the largest h (in whole numbers) succeeds, without an index out of range. The table it leaves is not the one meant, the share of the rows of an h and a depth whose f is above a value: it holds a one for the bin of the largest h, the depths that occur and all values below the largest f, and zeros elsewhere, and the decision to go on reads the bin of the largest h for every state. If the largest f is below the largest h training fails.", "quantifier": "all non-empty sets of training rows with non-negative values", "why_tests_cant": "needs all training sets; a test sees the numbers of one", "anchors": ["search/dtastar.hpp Dtastar::findExtremes", "search/dtastar.hpp Dtastar::makeProbs", "search/dtastar.hpp Dtastar::hbin", "search/dtastar.hpp Dtastar::fbin", "search/dtastar.hpp Fs Ds Hs"]}
{"id": "C140", "title": "DTA*'s decision to go on with a lookahead", "statement": "With a single lookahead, or if no open node of the best one is above the f of the second, the decision is to stop. It goes on only if, for some set of the best open nodes reaching above that f and some depth of the table, chances that the table gives to nodes of the set, one for each f, add up to the cost of expanding the set to that depth. Otherwise it does not decide to stop: as soon as an open node is above the f of the second lookahead the outcome is to go on or undefined, and undefined if all f are within the training. The chances that are added up need not be the least ones of the set, so it can go on where the gain is zero.", "quantifier": "all tables, weights, times, numbers of lookaheads and sorted lists of open nodes", "why_tests_cant": "needs all lists of nodes and tables; the undefined conversion depends on the compiler", "anchors": ["search/dtastar.hpp Dtastar::keepGoing"]}
{"id": "C141", "title": "Reading the rows DTA* is trained with", "statement": "From any number of training files the rows are the samples of all files in the order of the files and of the lines, and the branching factor is the mean of all the branching values of all files (zero if there are none); other lines have no effect. A negative branching value or depth anywhere is an error.", "quantifier": "all lists of files and all lines in them", "why_tests_cant": "the mean is kept step by step over all files; needs all numbers of samples", "anchors": ["search/dtastar.hpp dfReadRows", "search/dtastar.hpp Dtastar::readRows"]}
