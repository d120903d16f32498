# Formal model of Kuree/kratos in Coq 8.16.1

The model is written in Gallina as small total computable functions, one
definition per C++ function (or per case of a visitor), each with a comment that
cites the file and lines in `/repo` it models and says what it leaves out.
Undefined behaviour of the C++ is a distinct outcome (`UB`), exceptions are another
(`Throw`), so no theorem holds because a partial function was made total.

Every area has up to four files: `X_spec.v` (what the words of the property mean,
written without the model's helpers), `X_model.v` (the code), `X_proofs.v` (lemmas)
and `X_props.v` (the theorems named after the properties, each with an `Example`
showing that a concrete case meets its hypotheses, and `Print Assumptions`).

A property that is false of the code in general is split: the part that holds is
stated with its conditions in the quantifier and proved, and the general claim is a
property of its own with a theorem `..._refuted`, a witness (or a statement for all
inputs of a shape) that the modelled code breaks it.  Its status in MANIFEST.json is
`partial`, as nothing positive is proved under that id.

## Trusted base

* Coq's kernel (8.16.1).  No plugins, no axioms of our own, no `Admitted`, no
  switched-off checks, no functors or module types, standard library only.
* `Print Assumptions` after every property theorem says "Closed under the global
  context", with one exception: `C12_clog2_is_ceiling_of_real_log2` (Util_real.v),
  which relates `clog2` to the real logarithm, uses the standard library's real
  numbers: `ClassicalDedekindReals.sig_not_dec`, `ClassicalDedekindReals.sig_forall_dec`,
  `FunctionalExtensionality.functional_extensionality_dep` and
  `Classical_Prop.classic`.
* The reading of the C++ recorded in the comments, and the specifications.  The
  meaning of SystemVerilog is ours: `SV_spec.v` (two's complement operators and
  context-determined widths), `IRSem_spec.v` (expressions, blocking and non-blocking
  assignments, if, case, for, return), `Print_spec.v` (expression grammar with its
  precedences), `Nest_spec.v` (statement grammar with the dangling else),
  `Const_spec.v` (sized literals), `Xml_spec.v` (XML documents).
* Where C++ leaves an order open (hash sets and maps, sets ordered by address) the
  model takes a list and the theorem is about every list with the same elements, or
  the order is an argument.
* `std::pow` on doubles (power operator) is an oracle: theorems quantify over it.
  Hash values (`Hash`, `Uniq`) are computed by an abstract mixing function where the
  property does not depend on it.

## What is modelled

| files | code | modelled | proof |
|---|---|---|---|
| Eval | src/eval.cc | word arithmetic of the constant evaluator, every operator at every width 1..64 | case analysis on operators, arithmetic mod 2^w |
| Const, Num | src/expr.cc Const, fmt `{:X}` | legality, set_value, set_width, printed literals, string constants | iff with the representable range, invariant over histories, round trip with a literal reader |
| Print | src/expr.cc Expr::to_string, src/util.cc operator text | token lists of expressions; wrapping of names by the stream is not modelled | round trip with a precedence parser, induction on trees |
| Slice, Struct | src/expr.cc slices, packed structs; src/analysis.cc typedefs | selection chains, flattening, field offsets; 32-bit overflow of sizes not modelled | induction over chains, dimensions, fields |
| Util, Util_real | src/util.cc clog2, get_tokens, line_wrap, strip_newline | whole functions | list induction, real logarithm |
| IfCase, RemoveEmpty, MergeIf, MergeWire | src/optimize.cc:17-202, 370-529, 926-1014 | the passes on the statement tree | semantic equivalence by induction on trees |
| Gate, Pipe | src/optimize.cc:531-924, Var::move_src_to | rewriting of one process, pipeline of one module; attributes and the new ports between modules not modelled | simulation per edge lifted to histories; stuttering relation over cycles |
| Xform | src/transform.cc assignment kinds, sorting; src/debug.cc, event.cc, formal.cc stripping; generator.cc deferred removal | tree rewrites and statement lists | tree and list induction, stable sort |
| Zero | src/transform.cc:121-224, src/analysis.cc connected | one input port | interval arithmetic, partition of the bits |
| Flow, Driver, Enable | src/analysis.cc latch, return, driver and enable analyses | statement trees without function calls | soundness against the execution semantics |
| Fsm | src/fsm.cc | generated state machine with next-state and output processes, nested machines flattened | refinement of the declared machine, all input histories |
| Name | src/generator.cc name tables, inlining | histories of declarations, removals, renamings | invariants over operation lists |
| Uniq, Hash, Graph | src/pass.cc, context.cc, hash.cc, graph.cc | unique naming, structural hash, instance graph | invariants over processing order; collision witnesses |
| Wire, Bundle | src/generator.cc wiring, src/port.cc bundles, kratos/generator.py | direction analysis, bundle definition, flip and connection | case analysis, list induction |
| Loop, Nest | src/stmt.cc ForStmt, src/codegen.cc:781-972 | loop headers executed; statements as tokens; labels, comments, indentation not modelled | execution of the printed header; parser of the printed text |
| Sim | src/sim.cc | expression evaluation, slices of arrays, blocks; the event queue between processes is not modelled | induction on expressions and statements |
| Sram | src/lib.cc | single port SRAM and banks, per clock edge | refinement to a flat memory over all histories |
| Cov, Covparse, Xml, Path | src/fault.cc | localisation, coverage readers, XML writer, report paths | list induction, codec round trips |
| Param | src/expr.cc Param, set_width_param, set_size_param; src/sim.cc static evaluation | values, links, widths and dimensions; states after an exception not modelled | invariant over histories of actions |
| Design, Dce | src/optimize.cc:1130-1241; src/expr.cc sinks and sources | flat designs of wires, combinational and clocked processes with an event-driven semantics; generators of one level are visited one after the other instead of in parallel | lockstep simulation over every schedule, invariant over removal steps |
| Fan, Retarget | src/optimize.cc:204-275; src/expr.cc:1598-1644 | flat designs; chains of wires within a generator; slices as targets, interfaces and wires between two ports of one instance in its parent not modelled | relation between process runs with renamed targets; histories in both directions; invariant over the variables visited |
| Tie | src/optimize.cc:1016-1066; src/generator.cc:625-634 | flat designs; slices as targets and initial blocks not modelled | histories in both directions per generator, invariant over the generators visited |
| Move | src/expr.cc:1487-1676 | flat designs; casts, duplications, indices on the right side and links not modelled; the state after an exception is not modelled | characterisation of what stays by induction on expressions; processes agree where the two signals do, histories in both directions |
| Pass | src/optimize.cc:277-367; src/expr.cc:1598-1676 | flat designs; clones, instances inside a removed instance, parameters and debug information not modelled; new names are a function with its freshness as hypothesis | histories in both directions per wire, composed over wires, instances and generators; counting argument for the recognition |
| Net | src/expr.hh:150-164; src/expr.cc:703-721, 926-933, 1073-1075, 1131, 1241-1263, 1345-1392, 1742-1803; src/stmt.cc:206-229, 449-455; src/generator.cc:545-548, 625-634, 1000-1019 | function calls, the sets that expressions other than signals keep of their own, and statements in nested blocks not modelled | effect of each operation as an equivalence by induction on expressions; invariant over sequences of calls |
| Build | src/expr.cc:727-818, 2148-2201; src/analysis.cc:21-51, 94-121 | arrays, iteration variables, the declared width of && and ||, casts of casts not modelled; the context rules of SystemVerilog (IEEE 1800 11.6-11.8) are in Build_spec.v | induction on expressions with the width and sign of the context; case analysis on operands |
| Check | src/analysis.cc:61-92, 130-215, 277-394, 799-843, 1410-1501, 1503-1599; src/expr.cc:821-845 | flat designs in visiting order; functions, delays, the synthesizability and flip-flop checks and the texts of the messages not modelled | invariant of the map of resets over the visited processes; equivalences by induction on expressions and lists of modules |
| Simq | src/sim.cc:14-190, 192-201, 269-347, 502-557, 593-724, 734-763; src/sim.hh:8 | whole scalar variables, one flat design; slices only in the table of linked bits; the depth limit is in the model but no claim is made about when it is reached; the dangling reference of eval is a separate model, the loop copies the element | invariant over sessions (every process waits or is up to date); simulation of one step; termination by a multiset measure on ranks |
| Decl | src/codegen.cc:117-156, 256-387, 710-764, 820-858, 1005-1055, 1186-1334, 1477-1527; src/expr.cc:1149-1215, 2036-2085; src/util.cc:348-371 | text is tokens; comments and debug attributes are left out; raw type parameters and string values of parameters; the directories of files | reading the tokens back with the parser of Print_spec; permutation and sortedness of insertion sort; induction on paths of instances, definitions and modules |
| Emit | src/codegen.cc:22-170, 216-254, 388-975, 1071-1217 (where lines end and which are noted); src/debug.cc:763-772 | the text itself; names, expressions and attributes are taken to have no line ends; interface ports of instances; empty case branches, which throw | every note is followed by its key with a known number of line ends between: closed under append, induction over nested statements |
| Call | src/stmt.cc:721-748, 757-881; src/stmt.hh:364-456; src/expr.cc:2258-2364; src/generator.cc:92-104, 294-360; src/codegen.cc:642-700; src/analysis.cc:1128-1250; src/syntax.cc:272-286 | text of arguments and formals is atomic; loop variables as returned values; bodies of functions; which return comes first is the order of the calls | invariant over the histories of a function; uniqueness of sorted permutations; the tables are sorted, so positions are found by name |
| Iface | src/interface.cc:10-203; src/interface.hh:29-116; src/generator.cc:92-104, 305-320; src/analysis.cc:1271-1405; src/codegen.cc:1089-1173; src/stmt.cc:863-881 | types of ports are numbers; the checks of directions between the two sides of a connection; clones | invariant over the histories of a definition; comma lists characterised by their last token; the first use of a name stands for the others |
| Inline | src/optimize.cc:1240-1422; src/generator.cc:550-575, 694-736; src/expr.cc:1646-1676; src/ir.cc:123-145 (orders of visits) | functions, named blocks, enums and attributes of inlined instances; slices of ports as connections; data races between visits; the flat design stands for the objects, a statement belongs to the generator its process is in | one port at a time: a copied signal replaces the port in both directions (Fan and Pass lemmas), an invariant keeps the remaining connections tidy; names by induction over the variables |
| Inst | src/transform.cc:231-292, 317-480; src/stmt.cc:681-705, 888-958; src/expr.cc:820-844, 1601-1676 | interfaces, structs, arrays, inout ports and casts; names of the variables (Name); connections that need no variable stay in the design between the two passes instead of only in the sets of sources and sinks | invariant over the ports that are done; each step adds a variable equal to a port, so that histories correspond; counterexamples by evaluation |
| Unused | src/optimize.cc:1067-1129; src/generator.cc:625-634, 1270-1284 | named blocks, assertions and comments that are removed with their blocks; the sets of sources and sinks are those of the statements | membership in the sets of sources and sinks; empty processes contribute nothing to a step |
| Lift | src/transform.cc:500-694; src/stmt.cc:409-416; src/generator.cc:1315-1340 | hashes of definitions (the group is given); widths and signs; the name of the loop variable (Name); casts of clocks; the order of unordered maps of ports | what is collected for a port depends only on its nets; sets of n indices out of 0..n-1 are permutations; prefixes by induction |
| Seqp | src/tb.cc:26-64; src/tb.hh:25-70; src/codegen.cc:170-175, 711-764; src/transform.cc:483-498, 1001-1071; src/generator.cc:362-369 | expressions in properties (a signal stands for them); names resolved with instances are found from the top; the width check of edges; one module per name and hash in a few lines (Uniq and Hash have the rest) | text as tokens; the grammar of sequences is a relation, shown deterministic by a decoder; semantics over traces by induction on the chain |
| Strip | src/debug.cc:565-604; src/event.cc:68-112; src/stmt.hh:312-412 | what is in assertions and events; labels of blocks | statements inside a block before and after correspond; composition with the theorems on the removal of empty blocks (C15) |
| Assign | src/expr.cc:53-59, 880-924, 1021-1093, 2243-2264; src/port.cc:17-72, 130-157; src/stmt.cc:133-213; kratos/util.py:155-175 | loop variables and parameters in assignments; null arguments; the generator of a constant; attributes of signals are given as their constructors leave them | cases of target and source; induction over the sequence of assignments (what is not assigned again keeps its width) and of casts (a later cast keeps all but the enumeration) |
| Handle | src/expr.cc:290-313, 1265-1290, 1340-1362, 1426-1476, 1805-1819; src/generator.cc:1313-1347 | concatenations of more than two parts; constants, parts and casts in expressions; instances in generate loops (in Lift) | splitting a joined list of names without dots gives the list; induction over expressions |
| Fsmb | src/fsm.cc:46-88, 463-485, 500-600, 662-706, 751-762 | colours of the drawing, text of conditions, files; that the child loses its start state; machines of different generators | Breadth-first traversal with states outside noted equals the one of Fsm when nothing is outside; names joined by '_' are injective on names without it; invariants over sequences of next, add_child_fsm and add_state; table by induction |
| Pfix | src/transform.cc:703-763 | sources that are expressions or slices (outside the model, None), functions, the order of an unordered set of sources; several ports are several calls | The rewriting equals replacement everywhere on plain uses; processes run alike when port and source are equal, which the wire makes them in settled states (alike_history of Move) |
| Child | src/generator.cc:404-525, 1124-1199: add_child_generator, get_child_generator, remove_child_generator, rename_child_generator, replace | comments and clone references of children; wires are assignments between whole signals | invariant over all sequences of calls (name map, order, parents and names agree); wires as filters and maps of the old ones; refuted parts with small trees |
| Tydef | src/analysis.cc:1013-1089, src/graph.cc:188-247, src/expr.cc:1843-1850, 1884-1890: collecting packed structs and sorting their typedefs | the text of typedefs (Struct_model); definitions are finite trees, so pointers do not form cycles | depth-first search with arbitrary orders of nodes and children: the queue holds every node after its users; fuel is shown to suffice |
| Pack | src/transform.cc:765-905: port bundles that become packed structs | statements are assignments between whole signals; width parameters picked up by the moves | the hashed text determines widths and signs when field names are equal (reading numbers back); conversion as one substitution over all statements, by induction over bundles and fields |
| Arr | src/sim.cc:350-476, 554-592 (values of arrays, signed values) | the events that the changed bits trigger (Simq has them), slices of scalars | the changed bits are characterised by induction over the elements; undefined shifts and ranges are the outcome UB |
| Syn | src/ir.cc:24-40, src/analysis.cc:224-276, 845-886 (visit_root, the synthesis check, the flip-flop check), src/syntax.cc:273-286 | visitors that change the IR while walking it; where nodes are printed | the depth-first walk with its set of visited nodes is proved to give the reachable nodes once, by induction on the fuel with the number of unvisited nodes as measure |
| Idx | src/expr.cc:648-701 (VarVarSlice) | indices with loop variables (Loop has them), var_high and var_low | arithmetic on the least number of bits (Util) |
| Blk | src/stmt.cc:19-101, 252-323, 364-408, 417-500 (statements in blocks and their parents) | sinks and sources of assignments (Net, Assign have them), switch statements, clones of nested blocks, genvar loops | a heap of statements with parent pointers; that every statement has the parent it is in is an invariant of the calls |
| Dbg | src/debug.cc:68-164, 216-229, src/stmt.cc:76-81, 325-330, 475-481, 634-640, src/context.cc:14-18, src/generator.cc:404-417 | whether a scope variable is a variable or a constant; a dotted instance name with fewer than two parts; which variables find_driver_signal has entries for | C396-C399: statements are a tree; what a tree shows at a path after one variable has been added is what it showed with that variable in the environment, in front (add_seen), by induction on the path; then induction on the depth. C400, C401: induction on the size of the expression. C402: the last colon. C404: induction on the names with the parents of older generators unchanged. C405: a path would be infinite. |
| Ssa | src/debug.cc:326-403, 443-474, 605-750 | the variables and conditions of the entries; what is not an assignment in an SSA block (throws); attributes are read by Dbg_model; the database file itself | C406, C407: the mapping of the current scope is what was last assigned, by induction on the assignments: entering a scope copies it. C408, C409: induction on the size of the tree of statements. C410: std::map::emplace as a fold. |
| Cln | src/generator.cc:136-142, 231-236, 998-1075 | enum and struct ports of a clone become plain ports (not distinguished here); parameters that are not numbers; sources and sinks of unwired variables (Move, Net) | C412-C415: the loop over ports as a map, by induction, the names being new. C416, C417: induction on the statements. |
| Stg | src/graph.cc:156-187, src/codegen.cc:1334-1351 | cyclic nesting; the lines of variables, which are all moved | C418: induction on the depth with the list of places; the outcome is decided by whether it has duplicates. C419 follows. |
| Lnk | src/expr.cc:403-462, 1322-1327, 1679-1716, src/generator.cc:106-114, 208-212 | width and sign of copied constants; the raw type parameter (463-472); sources and sinks, which move separately (Move) | C420-C424: induction on the expression and on the dimensions. C425-C427: the state after each loop as an explicit function of the state before, by induction on slices and casts. |
| Sw | src/stmt.cc:541-633 | parents of the statements (Blk); constants whose value is changed after they were used as a case; which of the orders std::sort may give it gives | C428: invariant over the additions. C429: a sorted list whose keys differ is the only one; the keys differ when the values do, except -1 and the default (C430). C431-C433: induction on the cases. |
| Txt | src/stmt.cc:968-1013 | locales other than C for white space | C434: the lines split the text, and a text splits in only one way. C436 from the wrapping theorem. C435, C437 follow from the tokens. |
| Vport | util.cc 269-347: the regular expression search, the tokens and the ranges of get_port_from_mod_def | The regular expression is modelled by what it matches (keyword, one blank or bracket, the longest run of the character class); locale-dependent character classes are ASCII; comments and the search of the module in the file are not modelled. | Printing declarations and reading them back, by induction over the declarations; what is read wrong is computed for all names |
| Conn | port.cc 82-126 with the add_sink/add_source family of expr.cc: connected_from, connected, connected_to; generator.cc 953-995: wire_interface | The sources and sinks of a port are computed from the statements of the design rather than kept in sets; the width checks of the statements are not modelled. | Structural induction on expressions: what is recorded against which ports occur, are driven and index |
| Dvar | debug.cc 232-308: create_variables; 198-214: set_variable_mapping | The symbol table library that stores the variables is not modelled. | Dotted names are read back to indices, so that they are injective; the conditions are compared as texts |
| Sel | fault.cc 18-39 and 47-92: add_simulation_state, mark_wrong_value, select_gen, select | Slicing a variable is a parameter of the model; std::stoi is modelled on ASCII text. | Dotted names are split back into their parts, numbers are read back; induction over the path and over the indices |
| Kid | fsm.cc 47-55: add_child_fsm; 600-617: get_all_child_fsm | The start state, which adding a child clears, is not modelled; the machines of a generator have distinct names. | The queue and the answer are heads of ways down the hierarchy that are all different; the walk is bounded by the number of calls |
| Ifv | analysis.cc 594-602 and 613-638: the if statements check_sequential looks at; expr.cc 2204-2215: has_iter_var | What is then checked in the branches is in Flow. | Induction over the expressions of Conn_spec |
| Big | python/kratos_expr.cc 542-573: constants made from Python; expr.cc 991-1009, 1406-1412, 2104-2115: big numbers and strings | Python's integers are integers; whether the constructor accepts a big number is a parameter, since it shifts by 64 and more. | Digits in either case are read back; bytes put together with shifts and or are a number in base 256 |
| Cpy | copies of ports: src/generator.cc:131-186, src/port.cc:17-39, 72-80, 130-133, 159-187, the overloads of python/kratos_generator.cc:85-116, single ports of src/codegen.cc:1250-1263 | parameters of widths and sizes (Lnk), attributes | the ports that can be made are an inductive predicate over declarations and setters; the overload called from Python is the first registered that accepts; by cases |
| Evt | events: src/event.cc:13-64, src/stmt.cc:1014-1052, src/stmt.hh:591-629 | a statement that is in two places, the unused text of fields (src/event.cc:114-138) | an inductive relation between a design, the places around an event and the event; induction over designs, and over chains of calls from the end |
| Fix | assigning expressions with loop variables: src/expr.cc:806-818, 2116-2242, src/stmt.cc:133-176 | the simulator, which is a parameter but for loop variables; concatenations and conditionals; the check of packing | the safety test of Loop_model at both ends against all values; the bits of a sum, difference or product are low bits of those of wider operands, by induction over an invariant of the widths of the constants; state-passing model so that what a refusal leaves behind is seen |
| Ctx | the table of generators of a context: src/context.cc:14-45, 62-110, 140-163, src/generator.cc:1021-1049 | the hashes, the enumerations and the tracked generators; several contexts; the order in a set; ports of clones | invariants over histories: every set lists generators of its name, no repetition, everything listed; a renaming as an exact change of the listing |
| Stub | zeroing stubs: src/transform.cc:76-120 with src/stmt.cc:133-189, src/port.cc:41-70, 135-139 | children of a stub, which the pass does not look at; the threads of a level, which race in the table of constants | induction over the ports, with the exact condition on each port |
| Pm | pass managers: src/pass.cc:92-136, src/pass.hh | the passes, which are a parameter; the printed times | induction over the history; the order of names as a list of registered passes |
| Lab | src/generator.cc:92-104, 404-525, 694-736, 1260-1312 (names of blocks, comments of children), src/codegen.cc:1057-1072 | the names given by finite state machines and unrolled loops; where comments are printed | histories; the entries of the table are the first of each name; the label is one of the names for every order; refinement of the comments to records of the children |
| Cat | src/expr.cc:249-275, 1186-1189, 1292-1341, 1540-1543 (concat, extend and the objects they keep), src/expr.hh:165, 685, 706 | arrays; exchanges in nested concatenations | histories; an invariant relates the kept objects to what they were made of while widths and parts are not changed |
| Walk | src/ir.cc:24-54 (the loop of visit_root and visit_root_s over the children of a node) | the visits below a child, which are part of its effect; nodes reached from elsewhere; addresses that are used again | any effect on the list of children; the children before the index were visited, an invariant; induction on what is left for effects that take out |
| Fso | src/fsm.cc FSM::output, FSMState::output, FSMState::check_outputs | the ownership of the variables, debug information, the messages | histories of calls on one machine and one state; the table of outputs is any permutation of what was inserted |
| Ind | src/codegen.cc SystemVerilogCodeGen::indent, pre_indent | the lengths beyond 2^32, the lines themselves | histories of levels, omissions and lines; the kept string of spaces is modelled |

## What is not modelled

* The Python front end (`/repo/python`, `/repo/kratos`) except the argument order of
  `wire`, and the Python-to-IR translation of functions.
* src/codegen.cc except statements, literals, expressions, struct typedefs and loop
  headers: module headers, port lists, instantiation text, interfaces, packages, DPI.
* src/debug.cc (symbol tables, SSA), src/sim.cc event scheduling, src/tb.cc, src/syntax.cc,
  src/interface.cc, src/formal.cc except stripping, threads (`visit_root_tp`).
* Memory management: shared pointers, iterator invalidation and identity of objects
  except where a model names it (`UB` for freed memory and null pointers that are read).
* Whole-design composition: the passes are proved one by one on one module.

## Tests against wrong programs

`seeded/LOG.jsonl` has one line per edit of a copy of the model: the definition, the
edit, the claim it breaks and the property theorems that no longer compile.  Theorems
that still compiled were tightened; the line says which.

## Properties

How each is modelled and proved follows from its files (table above).

| id | property | status | files | theorems |
|---|---|---|---|---|
| C01 | Unsigned constant arithmetic is modular | proved | Eval | 3 |
| C02 | Signed constant arithmetic is two's complement | proved | Eval | 2 |
| C03 | Constant comparison is the order on the represented numbers | proved | Eval | 1 |
| C04 | Constant shifts agree with SystemVerilog | proved | Eval | 3 |
| C05 | Constant unary and reduction operators agree with SystemVerilog | proved | Eval | 7 |
| C06 | Every evaluated constant fits its width | proved | Eval | 4 |
| C07 | Constants are accepted iff representable | proved | Const | 3 |
| C08 | Printed expressions mean what was built | proved | Print | 2 |
| C09 | Nested slices select the addressed bits | proved | Slice | 2 |
| C10 | Packed struct fields tile the struct | proved | Struct | 3 |
| C11 | Flattening an array enumerates each element once | proved | Util | 1 |
| C12 | clog2 is the least sufficient number of address bits | proved | Util | 1 |
| C13 | Splitting a string on delimiters loses nothing else | proved | Util | 1 |
| C14 | If-to-case conversion preserves behaviour | proved | IfCase | 2 |
| C15 | Removing empty blocks preserves behaviour | proved | RemoveEmpty | 4 |
| C16 | Merging if statements preserves behaviour | proved | MergeIf | 1 |
| C17 | Merging bitwise wires preserves connectivity | proved | MergeWire | 4 |
| C18 | Pipelining an output delays it by exactly n cycles | proved | Pipe | 1 |
| C19 | A deasserted clock enable freezes the registers | proved | Gate | 5 |
| C20 | Synchronous reset insertion | proved | Gate | 3 |
| C21 | Assignment kinds are resolved consistently | proved | Xform | 3 |
| C22 | Statement sorting is a stable permutation | proved | Xform | 2 |
| C23 | A passed latch check means no inferred latch | proved | Flow | 3 |
| C24 | A passed return check means every path returns | proved | Flow | 2 |
| C25 | A passed multiple-driver check means one driver per bit | proved | Driver | 2 |
| C26 | Unconnected input bits are zeroed exactly | proved | Zero | 2 |
| C27 | Fresh variable names are fresh | proved | Name | 2 |
| C28 | Realised state machine implements the declared one | proved | Fsm | 5 |
| C29 | State encoding is injective and fits | proved | Fsm | 3 |
| C30 | Modules share a name afterwards iff they shared name and hash | proved | Uniq | 3 |
| C31 | Equal structural hash means interchangeable modules | refuted | Hash | 6 |
| C32 | Printed for loops iterate as declared | proved | Loop | 3 |
| C33 | Instances are ordered dependencies-first | proved | Graph | 3 |
| C34 | Wiring picks the legal direction | proved | Wire | 3 |
| C35 | Name lookup returns what was declared | proved | Name | 4 |
| C36 | Flipping a port bundle is an involution | proved | Bundle | 3 |
| C37 | Fault localisation reports exactly the suspicious statements | proved | Cov | 4 |
| C38 | Simulator expression evaluation | proved | Sim | 1 |
| C39 | Simulator array access | proved | Sim | 2 |
| C40 | Simulator executes a block as SystemVerilog does | proved | Sim | 1 |
| C41 | Breakpoint enable conditions are exact | proved | Enable | 1 |
| C42 | Banked SRAM behaves as one memory | proved | Sram | 3 |
| C43 | Verilator coverage lines are decoded faithfully | proved | Covparse | 3 |
| C44 | XML escaping is reversible | proved | Xml | 3 |
| C45 | If/else text nests as built | proved | Nest | 3 |
| C46 | Removing assertions, events and async resets removes nothing else | proved | Xform | 4 |
| C47 | Deferred statement removal equals immediate removal | proved | Xform | 2 |
| C48 | Parameter changes propagate to dependent widths and values | proved | Param | 7 |
| C49 | Signed evaluation and complement at the full 64-bit width | refuted | Eval | 2 |
| C50 | Arithmetic right shift of negative constants | partial | Eval | 2 |
| C51 | Reduction operators above 32 bits | refuted | Eval | 2 |
| C52 | If-to-case conversion when a chain repeats a test | refuted | IfCase | 1 |
| C53 | Removing an empty case arm next to a default | refuted | RemoveEmpty | 1 |
| C54 | Removing empty blocks never crashes | refuted | RemoveEmpty | 1 |
| C55 | Removing an empty then branch negates the predicate | refuted | RemoveEmpty | 1 |
| C56 | Merging ifs keeps later else branches | refuted | MergeIf | 1 |
| C57 | Merging ifs whose bodies update the tested variable | refuted | MergeIf | 1 |
| C58 | Merging ifs separated by other statements | refuted | MergeIf | 1 |
| C59 | Merging wires that permute bits | refuted | MergeWire | 1 |
| C60 | Merging wires inside blocking code | refuted | MergeWire | 1 |
| C61 | Constants print as literals with their value | proved | Const | 1 |
| C62 | 64-bit constants print as literals with their value | refuted | Const | 1 |
| C63 | String constants | refuted | Const | 2 |
| C64 | Right-nested operators print with the right meaning | refuted | Print | 1 |
| C65 | A negated difference prints with the right meaning | refuted | Print | 1 |
| C66 | Repeated prefix operators print as separate tokens | refuted | Print | 1 |
| C67 | Ranges of multi-dimensional arrays | refuted | Slice | 1 |
| C68 | Struct bit offsets match the emitted typedef | refuted | Struct | 1 |
| C69 | A member of a plain vector is rejected | refuted | Struct | 1 |
| C70 | Struct members are declared in legal SystemVerilog | partial | Struct | 2 |
| C71 | Redefining a struct requires an identical definition | partial | Struct | 3 |
| C72 | Line wrapping keeps the words and fits the lines | proved | Util | 2 |
| C73 | Line wrapping after an over-long word | refuted | Util | 1 |
| C74 | A comment is printed on one line | proved | Util | 2 |
| C75 | Stripping line breaks from comments removes nothing else | refuted | Util | 2 |
| C76 | Simulator orders signed operands | refuted | Sim | 1 |
| C77 | Simulator gives unary minus and and-reduction a value | refuted | Sim | 1 |
| C78 | Simulator sign-extends | refuted | Sim | 1 |
| C79 | Simulator bit access | refuted | Sim | 3 |
| C80 | Simulator: the last non-blocking assignment wins | refuted | Sim | 1 |
| C81 | Simulator compares with negative constants | refuted | Sim | 1 |
| C82 | Simulator case selection for wide selectors | refuted | Sim | 2 |
| C83 | Registers with a reset are driven in normal operation | proved | Flow | 2 |
| C84 | A passed latch check covers every bit | refuted | Flow | 1 |
| C85 | A passed latch check covers loops | refuted | Flow | 2 |
| C86 | The case coverage check is defined for every selector | refuted | Flow | 1 |
| C87 | Enable condition of a default branch | refuted | Enable | 2 |
| C88 | Multiple drivers from loops are detected | refuted | Driver | 1 |
| C89 | The multiple-driver verdict is a function of the design | refuted | Driver | 1 |
| C90 | Distinct states get distinct codes even across nested machines | refuted | Fsm | 1 |
| C91 | A state that declares an output as kept leaves it unchanged | refuted | Fsm | 1 |
| C92 | Mealy outputs are those of the transition taken | refuted | Fsm | 1 |
| C93 | Every declared machine is generated or rejected | refuted | Fsm | 2 |
| C94 | A port cannot be declared under the name of a variable | refuted | Name | 1 |
| C95 | A removal that fails changes nothing | refuted | Name | 1 |
| C96 | Declaring a variable again gives the same variable | refuted | Name | 2 |
| C97 | The port table follows the variable table | refuted | Name | 2 |
| C98 | Renaming a variable never loses a variable | refuted | Name | 1 |
| C99 | Renaming a variable leaves other names alone | refuted | Name | 1 |
| C100 | Declaring a parameter twice is rejected | partial | Name | 2 |
| C101 | Inlining a child keeps every variable | proved | Name | 1 |
| C102 | Inlining avoids names already used in the target | refuted | Name | 1 |
| C103 | An external module's name is not given to another module | refuted | Uniq | 1 |
| C104 | Copies of a module hash the same | proved | Hash | 1 |
| C105 | Hashing is defined for every nesting depth | refuted | Hash | 1 |
| C106 | Levels of an instance hierarchy of any size | refuted | Graph | 1 |
| C107 | Undecided assignments in sequential code become non-blocking | refuted | Xform | 1 |
| C108 | Non-blocking assignments in initial and latch code are reported | refuted | Xform | 1 |
| C109 | Every module can be sorted | refuted | Xform | 1 |
| C110 | Assertions can be removed from sequential code | refuted | Xform | 1 |
| C111 | Stripping reaches every block | refuted | Xform | 1 |
| C112 | Deferred removal with repeated statements | refuted | Xform | 1 |
| C113 | Deferred removal followed by adding the statement again | refuted | Xform | 1 |
| C114 | Wiring an inout port does not depend on argument order | refuted | Wire | 1 |
| C115 | Wiring never drives an input of the module itself | refuted | Wire | 1 |
| C116 | Wiring rejects signals that cannot be reached | refuted | Wire | 1 |
| C117 | Flipping a port bundle keeps its name | refuted | Bundle | 1 |
| C118 | A rejected bundle field is not defined | refuted | Bundle | 1 |
| C119 | Connecting two port bundles wires each field once | proved | Bundle | 1 |
| C120 | A rejected bundle connection adds no wires | refuted | Bundle | 1 |
| C121 | Coverage counts case branches and loop bodies | refuted | Cov | 1 |
| C122 | Coverage added after an analysis is used | refuted | Cov | 1 |
| C123 | Coverage rates are at most one | proved | Cov | 2 |
| C124 | The branch rate is at most one in general | refuted | Cov | 1 |
| C125 | The XML writer produces the document described | proved | Xml | 1 |
| C126 | The coverage report is well-formed | proved | Xml | 1 |
| C127 | Every source line is listed once in the coverage report | proved | Xml | 1 |
| C128 | A source line is reported with the hits of all its statements | refuted | Xml | 1 |
| C129 | Counts of any size are kept | refuted | Covparse | 1 |
| C130 | Values of coverage data may contain quotes | refuted | Covparse | 1 |
| C131 | Coverage hits are mapped to the right blocks | proved | Covparse | 1 |
| C132 | Coverage hits of other directories do not count | refuted | Covparse | 1 |
| C133 | Block coverage reports are read back | proved | Covparse | 1 |
| C134 | All columns of a row are recovered exactly | refuted | Covparse | 1 |
| C135 | Root path and file name give the source path | proved | Path | 1 |
| C136 | The root path is a directory of all files | refuted | Path | 1 |
| C137 | Names without directory are reported as they are | refuted | Path | 1 |
| C138 | Loops counting down stop at their bound | refuted | Loop | 2 |
| C139 | Loops whose step leads away from the end run nothing | refuted | Loop | 1 |
| C140 | Accepted loop indices fit | proved | Loop | 1 |
| C141 | Accepted indices over several loops fit | refuted | Loop | 1 |
| C142 | Inputs fully driven by parts are left alone | refuted | Zero | 1 |
| C143 | Inputs of any width can be zeroed | refuted | Zero | 1 |
| C144 | Arrays of several dimensions are zeroed exactly | refuted | Zero | 1 |
| C145 | Zeros are assigned where the input is driven | refuted | Zero | 1 |
| C146 | Banked SRAM shows on a write what one SRAM shows | refuted | Sram | 1 |
| C147 | Every multiple of a bank can be built | refuted | Sram | 1 |
| C148 | Processes partly under an enable are frozen as a whole | refuted | Gate | 2 |
| C149 | The reset works whatever the enable, also beside other statements | refuted | Gate | 1 |
| C150 | Registers without synchronous reset get one when others already have one | refuted | Gate | 1 |
| C151 | A reset above the enable works whatever pass ran first | refuted | Gate | 1 |
| C152 | Modules that read their own outputs can be pipelined | refuted | Pipe | 1 |
| C153 | Element widths given by an expression follow its value | refuted | Param | 2 |
| C154 | A width parameter taken away has no effect any more | refuted | Param | 2 |
| C155 | A dimension follows the parameter it was given last | refuted | Param | 1 |
| C156 | A parameter follows the one it was set from last | refuted | Param | 1 |
| C157 | A parameter set to a number is printed as that number | refuted | Param | 2 |
| C158 | Parameters set from each other are reported | refuted | Param | 1 |
| C159 | Dead code elimination keeps the behaviour of what is left | proved | Dce | 3 |
| C160 | Dead code elimination removes everything dead | proved | Dce | 2 |
| C161 | Dead code elimination keeps clocks of instances | refuted | Dce | 1 |
| C162 | Dead code elimination keeps external modules | refuted | Dce | 1 |
| C163 | Dead code elimination removes variables dead code reads through slices | refuted | Dce | 1 |
| C164 | The hash of a module distinguishes single changes | proved | Seen | 7 |
| C165 | Equal negative constants are ordered as equal | refuted | Eval | 1 |
| C166 | Removing single-use wires keeps the behaviour | proved | Fan | 4 |
| C167 | Removing single-use wires keeps every signal driven once | partial | Fan | 4 |
| C168 | Removing single-use wires keeps clocks connected | refuted | Fan | 1 |
| C169 | Removing single-use wires keeps the order of blocking assignments | refuted | Fan | 1 |
| C170 | Removing single-use wires ends | partial | Fan | 2 |
| C171 | Tying constants to ports keeps the behaviour | proved | Tie | 4 |
| C172 | Tying constants to ports keeps what the port is assigned | refuted | Tie | 1 |
| C173 | Tying constants to ports keeps when a constant is assigned | refuted | Tie | 2 |
| C174 | Tying constants to ports keeps clocks connected | refuted | Tie | 1 |
| C175 | Moving the uses of a signal moves them all | proved | Move | 4 |
| C176 | Moving the uses of a signal leaves none behind | partial | Move | 5 |
| C177 | Moving the uses of a signal never fails | partial | Move | 2 |
| C178 | Removing pass-through modules keeps the behaviour | proved | Pass | 4 |
| C179 | Only instances without behaviour are taken for pass-through modules | refuted | Pass | 2 |
| C180 | Nothing refers to a removed pass-through module | refuted | Pass | 3 |
| C181 | Adding, disconnecting and clearing keep the sources and sinks of every signal right | proved | Net | 7 |
| C182 | The sinks of a signal are exactly the assignments that use it, also after parts of signals were disconnected | partial | Net | 3 |
| C183 | Removing a statement or taking an assignment back updates the sources and sinks | partial | Net | 4 |
| C184 | A statement that is added again is known to its signals | partial | Net | 2 |
| C185 | An expression means the same wherever it is used | proved | Build | 5 |
| C186 | An expression with signed and unsigned operands means the same wherever it is used | refuted | Build | 2 |
| C187 | Operands of different widths are brought to one width without changing their numbers | proved | Build | 3 |
| C188 | Operands of different widths are never cut off | partial | Build | 2 |
| C189 | A constant operand that does not fit is not silently changed | refuted | Build | 1 |
| C190 | Building an expression does not change the expressions that exist | partial | Build | 2 |
| C191 | An assignment that passes the check stores the value of its right side | proved | Build | 4 |
| C192 | A passed reset check means resets work | proved | Check | 6 |
| C193 | A passed reset check means every reset works | refuted | Check | 2 |
| C194 | The verdict of the reset check does not depend on the order of the processes | refuted | Check | 1 |
| C195 | A reported combinational loop is an assignment that reads the signal it assigns | proved | Check | 2 |
| C196 | A design that passes the check of combinational loops has a stable state | refuted | Check | 3 |
| C197 | An assignment that is stable after running once is not reported as a loop | refuted | Check | 1 |
| C198 | A passed connectivity check means every bit has an assignment | proved | Check | 1 |
| C199 | A passed connectivity check means every bit is driven | refuted | Check | 2 |
| C200 | A design whose outputs and instance inputs are driven passes the connectivity check | refuted | Check | 1 |
| C201 | Passed assignment checks mean one kind of assignment per signal | proved | Check | 3 |
| C202 | Assignments that use visible signals pass the check of names | proved | Check | 2 |
| C203 | Assignments that pass the check of names use visible signals only | refuted | Check | 3 |
| C204 | After an evaluation of the simulator everything is settled | proved | Simq | 1 |
| C205 | Setting an input of a synchronous design makes one clock step | proved | Simq | 1 |
| C206 | Evaluation of a design without combinational loops ends | proved | Simq | 1 |
| C207 | Clocked processes of a simulated design run in parallel | refuted | Simq | 1 |
| C208 | A simulated wire follows all the signals of its expression | refuted | Simq | 1 |
| C209 | Constants reach the signals they are assigned to | refuted | Simq | 1 |
| C210 | Disjoint slices of a signal are told of changes of their bits | proved | Simq | 2 |
| C211 | Overlapping slices of a signal are told of changes of their bits | refuted | Simq | 1 |
| C212 | Evaluation reads only live elements of its queue | refuted | Simq | 1 |
| C213 | Declarations have the dimensions, sign and type of the signal | proved | Decl | 2 |
| C214 | Width expressions keep their meaning in ranges | refuted | Decl | 1 |
| C215 | Variables are declared with the shape and type they were given | refuted | Decl | 2 |
| C216 | Port headers list every port once in a fixed order | proved | Decl | 1 |
| C217 | Port headers can be printed for every combination of directions | refuted | Decl | 2 |
| C218 | Parameters elaborate to their values | proved | Decl | 1 |
| C219 | Enum parameters elaborate to their values | refuted | Decl | 1 |
| C220 | Enum types are printed with every label once | proved | Decl | 2 |
| C221 | Enum definitions are legal SystemVerilog | refuted | Decl | 1 |
| C222 | The else action of a property runs when the property fails | refuted | Decl | 1 |
| C223 | Package headers are well formed | proved | Decl | 2 |
| C224 | Flattened wrappers have one port for each element | proved | Decl | 2 |
| C225 | Generated files hold the generated text | proved | Decl | 1 |
| C226 | Every module knows the file it is in | refuted | Decl | 2 |
| C227 | Package headers without an include guard are well formed | refuted | Decl | 1 |
| C228 | Every module can be wrapped | refuted | Decl | 1 |
| C229 | Lines recorded for debugging are the lines of the text | proved | Emit | 1 |
| C230 | Lines recorded for clocked blocks | refuted | Emit | 1 |
| C231 | Functions without ports do not disturb recorded lines | refuted | Emit | 1 |
| C232 | Lines recorded for port connections | refuted | Emit | 1 |
| C233 | Case statements have a line | refuted | Emit | 1 |
| C234 | The module is entered under its line | refuted | Emit | 1 |
| C235 | A call passes each argument to its formal | proved | Call | 3 |
| C236 | An argument may be used twice | refuted | Call | 1 |
| C237 | Calls are checked and typed | proved | Call | 2 |
| C238 | Calls pass formals only | refuted | Call | 1 |
| C239 | The declared result of a function has the sign of its returns | refuted | Call | 1 |
| C240 | Calls of system functions | proved | Call | 5 |
| C241 | System functions with many arguments | refuted | Call | 1 |
| C242 | The number of arguments of system tasks is checked | refuted | Call | 1 |
| C243 | Signs of system functions | refuted | Call | 1 |
| C244 | Imports of DPI functions | proved | Call | 1 |
| C245 | Imports have the widths of every function | refuted | Call | 1 |
| C246 | C types hold the values | proved | Call | 1 |
| C247 | C types of wide values | refuted | Call | 1 |
| C248 | Attributes of DPI functions can be taken back | refuted | Call | 1 |
| C249 | Calls of DPI functions have the type of the import | refuted | Call | 1 |
| C250 | Definitions of interfaces | proved | Iface | 1 |
| C251 | Ports and variables of an interface have different names | refuted | Iface | 1 |
| C252 | Unknown names in a modport are rejected | refuted | Iface | 1 |
| C253 | Inout ports in modports | refuted | Iface | 1 |
| C254 | Text of a modport | proved | Iface | 2 |
| C255 | Text of a modport with a name on both sides | refuted | Iface | 1 |
| C256 | Directions through a modport | proved | Iface | 1 |
| C257 | Directions of variables through a modport | refuted | Iface | 1 |
| C258 | The definition of an interface fits its uses | proved | Iface | 1 |
| C259 | Modports of interfaces of one name | refuted | Iface | 1 |
| C260 | Designs that use modports only | refuted | Iface | 1 |
| C261 | Names of instances of interfaces | proved | Iface | 1 |
| C262 | Signals declared after an interface | refuted | Iface | 1 |
| C263 | Connections of a module with interfaces | proved | Iface | 2 |
| C264 | Connections of interface instances | refuted | Iface | 1 |
| C265 | Inlining an instance keeps the behaviour of the design | proved | Inline | 1 |
| C266 | Inlining keeps the registers of the enclosing generator | refuted | Inline | 1 |
| C267 | Inlining keeps what an instance computes from its own outputs | refuted | Inline | 1 |
| C268 | The result of inlining does not depend on the order of visits | refuted | Inline | 1 |
| C269 | Removed ports are not named after inlining | refuted | Inline | 1 |
| C270 | Inlining only looks at variables and statements that exist | refuted | Inline | 1 |
| C271 | Inlining succeeds on instances connected to each other | refuted | Inline | 1 |
| C272 | Variables of an inlined instance have names of their own | proved | Inline | 1 |
| C273 | No variable of an inlined instance is lost to a name of the generator | refuted | Inline | 1 |
| C274 | Instances are connected | proved | Inst | 1 |
| C275 | Connecting instances keeps the behaviour | proved | Inst | 1 |
| C276 | Connecting keeps processes that read the inputs they drive | refuted | Inst | 1 |
| C277 | Inputs left open are reported | refuted | Inst | 1 |
| C278 | Outputs are used through their connections | refuted | Inst | 1 |
| C279 | Instances need not be decoupled first | refuted | Inst | 1 |
| C280 | Unused variables are removed exactly | proved | Unused | 2 |
| C281 | Removing empty blocks changes nothing | proved | Unused | 2 |
| C282 | A removed variable is named nowhere | refuted | Unused | 1 |
| C283 | Instances in step become a loop | proved | Lift | 1 |
| C284 | Loops of instances use the same nets | proved | Lift | 2 |
| C285 | Loops of instances connect as before | refuted | Lift | 1 |
| C286 | Elements driven by instances are driven once | refuted | Lift | 1 |
| C287 | Outputs may be left open when instances become loops | refuted | Lift | 1 |
| C288 | Instances that share a constant become a loop | refuted | Lift | 1 |
| C289 | A loop of instances is named by what their names share | proved | Lift | 1 |
| C290 | Loops of instances without a common name | refuted | Lift | 1 |
| C291 | Handles name the iterations of instances | proved | Lift | 1 |
| C292 | Handles name iterations in any order | refuted | Lift | 1 |
| C293 | The name of a loop of instances is new | refuted | Lift | 1 |
| C294 | Properties are written as built | proved | Seqp | 1 |
| C295 | Chains are built in order | proved | Seqp | 1 |
| C296 | Returned sequences stay usable | refuted | Seqp | 1 |
| C297 | What is written is a property | refuted | Seqp | 1 |
| C298 | Properties get the one clock | proved | Seqp | 1 |
| C299 | One clock is one clock | refuted | Seqp | 1 |
| C300 | Properties that wait have a clock | refuted | Seqp | 1 |
| C301 | Properties are about each instance | refuted | Seqp | 1 |
| C302 | Properties become statements by name | proved | Seqp | 1 |
| C303 | Generators with different properties are different modules | refuted | Seqp | 1 |
| C304 | The failure statement of a value assertion is for failures | proved | Seqp | 1 |
| C305 | The failure statement of a property is for failures | refuted | Seqp | 1 |
| C306 | Removing assertions and events removes exactly those | proved | Strip | 4 |
| C307 | Removing assertions and events keeps the behaviour | proved | Strip | 1 |
| C308 | Arms with only assertions or events stay arms | refuted | Strip | 1 |
| C309 | An if with only an assertion can be removed | refuted | Strip | 1 |
| C310 | No assertion or event is left in any block | refuted | Strip | 1 |
| C311 | Only a cast drives a typed port from a variable | proved | Assign | 2 |
| C312 | A clock is driven by a clock | refuted | Assign | 1 |
| C313 | Bits of a typed port are typed | refuted | Assign | 1 |
| C314 | Enumerations get values of their name | proved | Assign | 1 |
| C315 | Enumerations get their own values | refuted | Assign | 1 |
| C316 | Both sides of an assignment agree | proved | Assign | 2 |
| C317 | Both sides keep agreeing | proved | Assign | 1 |
| C318 | A constant can be used in several assignments | refuted | Assign | 1 |
| C319 | Constants and results are not assigned | proved | Assign | 3 |
| C320 | Parts of results are not assigned | refuted | Assign | 1 |
| C321 | Casts read as asked | proved | Assign | 2 |
| C322 | A variable can be cast to two enumerations | refuted | Assign | 1 |
| C323 | Clocks have one bit | refuted | Assign | 1 |
| C324 | A cast of one element has the right width | proved | Assign | 1 |
| C325 | A cast of an array has the right width | refuted | Assign | 1 |
| C326 | The name of a variable from the top leads to it | proved | Handle | 2 |
| C327 | The name of a variable from an instance leads to it | proved | Handle | 1 |
| C328 | A variable elsewhere has no name from an instance | refuted | Handle | 1 |
| C329 | Expressions name their variables from the top | proved | Handle | 2 |
| C330 | Extensions have hierarchical names | refuted | Handle | 1 |
| C331 | Hierarchical texts tell expressions apart | refuted | Handle | 1 |
| C332 | Expressions name their variables from an instance | proved | Handle | 2 |
| C333 | Operators name variables below an instance | refuted | Handle | 1 |
| C334 | The drawing of a machine has one circle for each state and all its moves | proved | Fsmb | 2 |
| C335 | The drawing of a nested machine has one circle for each state | refuted | Fsmb | 1 |
| C336 | Hierarchical names tell the states of a machine apart | proved | Fsmb | 1 |
| C337 | Hierarchical names tell states apart whatever the names | refuted | Fsmb | 1 |
| C338 | The moves of a state are the accepted calls of next | proved | Fsmb | 1 |
| C339 | A machine's children are the machines whose parent it is | proved | Fsmb | 1 |
| C340 | A machine added to another machine leaves the first one | refuted | Fsmb | 1 |
| C341 | Giving a state a move always ends | refuted | Fsmb | 1 |
| C342 | States are found by their names | proved | Fsmb | 2 |
| C343 | The table of outputs shows the value of every output in every state | proved | Fsmb | 2 |
| C344 | The table of outputs shows default values | refuted | Fsmb | 1 |
| C345 | Reads of a child's input port in its parent become reads of its source | proved | Pfix | 2 |
| C346 | Reads of bits of a child's input port are kept | refuted | Pfix | 1 |
| C347 | A child's input port as an index on the left is kept | refuted | Pfix | 1 |
| C348 | Reads of a child's input port that is assigned in parts are kept | refuted | Pfix | 1 |
| C349 | Reads of a child's input port that is given a constant are accepted | refuted | Pfix | 1 |
| C350 | The children of a generator are those that have it as parent, under distinct names | proved | Child | 3 |
| C351 | Adding a child under a name that is taken changes nothing | refuted | Child | 1 |
| C352 | Removing a generator that is not a child changes nothing | refuted | Child | 1 |
| C353 | A generator has one parent | refuted | Child | 1 |
| C354 | Removing a child removes exactly its wires | proved | Child | 1 |
| C355 | No assignment mentions a child that was removed | refuted | Child | 2 |
| C356 | Replacing a child rewires all its ports | proved | Child | 1 |
| C357 | A replacement that throws changes no assignment | refuted | Child | 1 |
| C358 | A replacement keeps the place of the child | refuted | Child | 1 |
| C359 | Each packed struct in use gets one typedef, after those of its fields | proved | Tydef | 1 |
| C360 | A struct that is declared elsewhere gets no typedef | refuted | Tydef | 1 |
| C361 | In an accepted design typedefs come after those they use | refuted | Tydef | 1 |
| C362 | Port bundles that are merged into one struct agree in widths and signedness | proved | Pack | 3 |
| C363 | Port bundles of one name with different fields are rejected | refuted | Pack | 1 |
| C364 | Converting bundles to packed structs rewires every port | proved | Pack | 1 |
| C365 | No statement mentions a port that was removed by the conversion of bundles | refuted | Pack | 1 |
| C366 | Setting an array in the simulator stores the given values and wakes up readers of exactly the changed bits | proved | Arr | 1 |
| C367 | Arrays of any element width can be set in the simulator | refuted | Arr | 1 |
| C368 | One number given to a packed array is cut into its elements | proved | Arr | 1 |
| C369 | One number can be given to a packed array of any size | refuted | Arr | 1 |
| C370 | A call to set an array that throws changes nothing | refuted | Arr | 1 |
| C371 | A part of an array can be read in the simulator | refuted | Arr | 1 |
| C372 | A part of an array can be assigned in the simulator | refuted | Arr | 1 |
| C373 | The values stored for an array fit its element width | refuted | Arr | 1 |
| C374 | Signed numbers are stored in two's complement | proved | Arr | 1 |
| C375 | Signed numbers can be given for an array | refuted | Arr | 1 |
| C376 | A pass is shown every node of the design once | proved | Syn | 2 |
| C377 | A design that passes the synthesis check has no content without hardware meaning where passes look | proved | Syn | 1 |
| C378 | The synthesis check rejects only what cannot be synthesised | refuted | Syn | 1 |
| C379 | The synthesis check finds final blocks | refuted | Syn | 1 |
| C380 | The synthesis check looks into every expression | refuted | Syn | 1 |
| C381 | The flip-flop check accepts a clocked block only if an if is alone in it | proved | Syn | 1 |
| C382 | Two different packed structs of one name are rejected | proved | Tydef | 1 |
| C383 | Two different packed structs of one name are rejected even if there are structs inside | refuted | Tydef | 1 |
| C384 | An index that is a variable may have as many bits as are needed, and selects one of equal parts | proved | Idx | 4 |
| C385 | Every value of an accepted index is in range | refuted | Idx | 1 |
| C386 | An accepted index can select every element | refuted | Idx | 1 |
| C387 | A width parameter does not change which indices are accepted | refuted | Idx | 1 |
| C388 | Statements are in the block they were added to, once and in order, and know it | proved | Blk | 2 |
| C389 | The statement before another one is the one before it in its block | proved | Blk | 1 |
| C390 | A statement added to a second block leaves the first | refuted | Blk | 1 |
| C391 | A statement in a loop can be removed from its parent | refuted | Blk | 1 |
| C392 | Replacing a statement of a block keeps the block well-formed | refuted | Blk | 1 |
| C393 | A scope variable can be overridden | refuted | Blk | 1 |
| C394 | Cloning a block does not change the original | refuted | Blk | 1 |
| C395 | An if cannot be put in its own body | refuted | Blk | 1 |
| C396 | Scope variables given to statements | proved | Dbg | 1 |
| C397 | A statement sees the innermost definition | refuted | Dbg | 1 |
| C398 | Scope variables reach statements in loops | refuted | Dbg | 1 |
| C399 | Overriding a scope variable in nested statements | refuted | Dbg | 1 |
| C400 | Drivers that are listed | proved | Dbg | 1 |
| C401 | All drivers are listed | refuted | Dbg | 1 |
| C402 | Reading the target of an SSA attribute | proved | Dbg | 1 |
| C403 | The target of an SSA attribute is a name | refuted | Dbg | 1 |
| C404 | Mock hierarchy | proved | Dbg | 1 |
| C405 | Mocking a hierarchy always gives one | refuted | Dbg | 1 |
| C406 | Context of assignments in SSA form | proved | Ssa | 1 |
| C407 | Branches do not see each other | refuted | Ssa | 1 |
| C408 | When the scopes of a design can be saved | proved | Ssa | 1 |
| C409 | Saving the debug database never fails | refuted | Ssa | 1 |
| C410 | Source of a line of the generated code | proved | Ssa | 1 |
| C411 | All known sources are in the mapping | refuted | Ssa | 1 |
| C412 | Clones of generators | proved | Cln | 1 |
| C413 | Widths of the ports of a clone | refuted | Cln | 1 |
| C414 | Arrays of one element in clones | refuted | Cln | 1 |
| C415 | Copying missing ports | proved | Cln | 1 |
| C416 | Unwiring | proved | Cln | 1 |
| C417 | Unwired variables are not connected | refuted | Cln | 1 |
| C418 | Moving line numbers | proved | Stg | 1 |
| C419 | Moving line numbers of top-level statements | refuted | Stg | 1 |
| C420 | A copied width or size has the value of the original | proved | Lnk | 2 |
| C421 | A copied width follows the parameter it was written with | refuted | Lnk | 1 |
| C422 | A copied ternary keeps its value | refuted | Lnk | 1 |
| C423 | Copying the parametrisation of a variable ties width and sizes | proved | Lnk | 1 |
| C424 | A variable made from another takes over its parametrisation | refuted | Lnk | 1 |
| C425 | Exchanging a variable takes its slices and casts along | proved | Lnk | 3 |
| C426 | A variable that takes over another's slices keeps its own | refuted | Lnk | 1 |
| C427 | A variable that is part of a concatenation can be exchanged | refuted | Lnk | 1 |
| C428 | A switch has one block for each value, with everything added under it | proved | Sw | 1 |
| C429 | The blocks of a switch are visited in an order fixed by the values | proved | Sw | 1 |
| C430 | The order of the blocks of a switch never depends on memory | refuted | Sw | 1 |
| C431 | A case can be removed by its value | partial | Sw | 2 |
| C432 | Several statements can be added to any case at once | partial | Sw | 2 |
| C433 | Removing a statement from a switch removes it and nothing else | proved | Sw | 1 |
| C434 | Raw text is kept line by line | proved | Txt | 3 |
| C435 | Raw text keeps its blank lines | refuted | Txt | 1 |
| C436 | A comment keeps its words | proved | Txt | 1 |
| C437 | A comment of several lines keeps its words | refuted | Txt | 1 |
| C438 | Ports of a Verilog module | proved | Vport | 1 |
| C439 | Width of a port in an ANSI port list | refuted | Vport | 1 |
| C440 | Ports declared with a type | refuted | Vport | 1 |
| C441 | Ports with a parametrised width | refuted | Vport | 1 |
| C442 | Ports on lines of their own | refuted | Vport | 1 |
| C443 | Ranges next to the keyword | refuted | Vport | 1 |
| C444 | Connections of a port | proved | Conn | 2 |
| C445 | Connections of part of a port | refuted | Conn | 1 |
| C446 | Whether a port is connected | proved | Conn | 1 |
| C447 | Outputs that are connected | refuted | Conn | 1 |
| C448 | Wiring interfaces | proved | Conn | 2 |
| C449 | Wiring interfaces that do not fit | refuted | Conn | 1 |
| C450 | Variables of arrays and structs in the debug database | proved | Dvar | 3 |
| C451 | Variables selected by a signal in the debug database | proved | Dvar | 1 |
| C452 | Bits selected by a signal in the debug database | refuted | Dvar | 1 |
| C453 | Selected elements of different members in the debug database | refuted | Dvar | 1 |
| C454 | Structs inside structs in the debug database | refuted | Dvar | 1 |
| C455 | Mapping a variable again | refuted | Dvar | 1 |
| C456 | Signals of a simulation run by name | proved | Sel | 5 |
| C457 | Elements of arrays in a simulation run | refuted | Sel | 1 |
| C458 | Variables named like instances in a simulation run | refuted | Sel | 1 |
| C459 | Marking an unknown signal | refuted | Sel | 1 |
| C460 | States that are refused | refuted | Sel | 1 |
| C461 | Indices of signals | refuted | Sel | 1 |
| C462 | Collecting child state machines ends | proved | Kid | 1 |
| C463 | The collected child state machines | proved | Kid | 1 |
| C464 | When child state machines can be collected | proved | Kid | 2 |
| C465 | State machines added once | proved | Kid | 1 |
| C466 | Circular state machines | refuted | Kid | 1 |
| C467 | Parents of state machines | refuted | Kid | 1 |
| C468 | If statements checked for latches in sequential blocks | proved | Ifv | 2 |
| C469 | Hidden resets | refuted | Ifv | 1 |
| C470 | Expressions with loop variables | proved | Ifv | 1 |
| C471 | Hidden loop variables | refuted | Ifv | 1 |
| C472 | Text of big constants | proved | Big | 1 |
| C473 | Integers as constants | proved | Big | 1 |
| C474 | Large 64 bit constants | refuted | Big | 1 |
| C475 | Negative unsigned constants | refuted | Big | 1 |
| C476 | String constants | proved | Big | 1 |
| C477 | Quotes in string constants | refuted | Big | 1 |
| C478 | All strings as constants | refuted | Big | 1 |
| C479 | Copies of ports | proved | Cpy | 2 |
| C480 | Every ordinary port can be copied | refuted | Cpy | 1 |
| C481 | Polarity of copied ports | refuted | Cpy | 1 |
| C482 | Copies of struct and enumeration ports | proved | Cpy | 2 |
| C483 | Copies of arrays of structs | refuted | Cpy | 1 |
| C484 | Copies of struct ports from Python | refuted | Cpy | 1 |
| C485 | Ports of flattened wrappers | proved | Cpy | 1 |
| C486 | Every generator can be wrapped | refuted | Cpy | 1 |
| C487 | Event information | proved | Evt | 2 |
| C488 | What is said of an event | proved | Evt | 2 |
| C489 | Matched values of events | refuted | Evt | 1 |
| C490 | Loop variables assigned to signals | proved | Fix | 2 |
| C491 | Sums of loop variables assigned to narrower signals | proved | Fix | 1 |
| C492 | Shifts and quotients of loop variables keep their values | refuted | Fix | 1 |
| C493 | Constants in assigned expressions | refuted | Fix | 1 |
| C494 | Refused assignments change nothing | refuted | Fix | 1 |
| C495 | Taken assignments leave other expressions alone | refuted | Fix | 1 |
| C496 | Generators by name | proved | Ctx | 2 |
| C497 | Renaming generators | proved | Ctx | 1 |
| C498 | Generators named later | refuted | Ctx | 1 |
| C499 | Names that exist | refuted | Ctx | 1 |
| C500 | Unique generators | proved | Ctx | 1 |
| C501 | Unique generators have names of their own | refuted | Ctx | 1 |
| C502 | Clones follow their originals | refuted | Ctx | 1 |
| C503 | Stubs are driven by zero | proved | Stub | 2 |
| C504 | All outputs of stubs | refuted | Stub | 1 |
| C505 | Stubs zeroed twice | refuted | Stub | 1 |
| C506 | Refused stubs are unchanged | refuted | Stub | 1 |
| C507 | Stubs drive outputs only | refuted | Stub | 1 |
| C508 | Pass managers | proved | Pm | 2 |
| C509 | Names of blocks | proved | Lab | 2 |
| C510 | Blocks with two names | refuted | Lab | 1 |
| C511 | Names of inlined blocks | refuted | Lab | 1 |
| C512 | Labels and variables in one scope | refuted | Lab | 1 |
| C513 | Comments of children | proved | Lab | 3 |
| C514 | Setting the comment of a child | refuted | Lab | 1 |
| C515 | Comments of renamed children | refuted | Lab | 1 |
| C516 | Concatenations | proved | Cat | 2 |
| C517 | Extensions | proved | Cat | 1 |
| C518 | Concatenations after an exchange | refuted | Cat | 1 |
| C519 | Concatenations and extensions after a change of width | refuted | Cat | 1 |
| C520 | The sign of a concatenation | refuted | Cat | 1 |
| C521 | Visitors of children that change | proved | Walk | 2 |
| C522 | Visits that take out earlier children | refuted | Walk | 1 |
| C523 | Visits without memory | refuted | Walk | 1 |
| C524 | Outputs of states | proved | Fso | 3 |
| C525 | Second values of outputs | proved | Fso | 1 |
| C526 | Later defaults of outputs | refuted | Fso | 1 |
| C527 | Order of default assignments | refuted | Fso | 1 |
| C528 | Indentation of lines | proved | Ind | 1 |
| C529 | Indentation of closing lines | proved | Ind | 1 |
| C530 | Indentation around a level | refuted | Ind | 1 |

## Findings: properties that the code breaks

* C31 Equal structural hash means interchangeable modules (`C31_hash_ignores_differences_refuted`): modules that differ in any of the ways of blind_t get the same hash, whatever the names, widths and texts; and such modules compute different values.
* C49 Signed evaluation and complement at the full 64-bit width (`C49_signed_width_64_refuted`): signed evaluation at width 64 is undefined for every operator as soon as one operand is negative: the property does not extend to width 64.
* C50 Arithmetic right shift of negative constants (`C50_arithmetic_shift_right_negative_refuted`): arithmetic right shift of negative numbers is wrong: -1 >>> r is never -1 when at least one bit is shifted in and at least one kept.
* C51 Reduction operators above 32 bits (`C51_reduce_and_wide_refuted`): above 32 bits &x is constantly 0 and ^x ignores the high bits.
* C52 If-to-case conversion when a chain repeats a test (`C52_if_to_case_repeated_test_refuted`): Without the "no repeated test" condition the claim is false: two branches that test the same value become one case that runs both bodies.
* C53 Removing an empty case arm next to a default (`C53_remove_empty_case_with_default_refuted`): An empty case arm next to a default: the value now selects the default.
* C54 Removing empty blocks never crashes (`C54_remove_empty_if_crashes_refuted`): An if statement with two empty branches makes the pass dereference a null pointer, whatever its predicate and whatever surrounds it before that point.
* C55 Removing an empty then branch negates the predicate (`C55_remove_empty_wide_predicate_refuted`): A multi-bit predicate is complemented bit by bit, which is not logical negation.
* C56 Merging ifs keeps later else branches (`C56_merge_if_else_lost_refuted`): The else branch of a later if is lost when the first if is taken.
* C57 Merging ifs whose bodies update the tested variable (`C57_merge_if_state_update_refuted`): A branch that changes the tested variable no longer triggers the later if.
* C58 Merging ifs separated by other statements (`C58_merge_if_reorders_refuted`): A statement between two merged ifs is overtaken by the second one.
* C59 Merging wires that permute bits (`C59_merge_wires_permuted_refuted`): Index-changing wiring (here: a bit reversal) is silently replaced by a straight one.
* C60 Merging wires inside blocking code (`C60_merge_block_blocking_refuted`): With blocking assignments the merged assignment moves behind its readers.
* C62 64-bit constants print as literals with their value (`C62_const_text_64_bits_refuted`): ... but a 64-bit unsigned constant with its top bit set is printed as text that is no literal, and printing the most negative one overflows.
* C63 String constants (`C63_string_constant_refuted`): No string of two or more characters is accepted, whatever the width.
* C64 Right-nested operators print with the right meaning (`C64_right_nested_operator_refuted`): A right-nested subtraction loses its parentheses and with them its value.
* C65 A negated difference prints with the right meaning (`C65_negated_difference_refuted`): The negation of a difference is printed as a different expression.
* C66 Repeated prefix operators print as separate tokens (`C66_repeated_prefix_refuted`): Negating twice, or reducing a reduction, is written as a different operator token.
* C67 Ranges of multi-dimensional arrays (`C67_range_of_multi_dim_refuted`): A range of a multi-dimensional array resizes the wrong dimension: the view's width is not the number of its bits.
* C68 Struct bit offsets match the emitted typedef (`C68_struct_layout_matches_typedef_refuted`): The emitted typedef lists the members in declaration order, which SystemVerilog lays out from the top: the first of several members is never where the generator thinks it is.
* C69 A member of a plain vector is rejected (`C69_member_of_vector_rejected_refuted`): A member of a member that is not a struct is looked up in the struct of the variable: accepted, and beyond the end of the variable.
* C70 Struct members are declared in legal SystemVerilog (`C70_struct_member_text_refuted`): Every signed vector member wider than a bit is printed with the sign after the range, which is not SystemVerilog; all other members are.
* C71 Redefining a struct requires an identical definition (`C71_redefinition_is_identical_refuted`): ... but nested members may be named differently.
* C73 Line wrapping after an over-long word (`C73_wrap_after_long_word_refuted`): One word longer than the limit turns wrapping off for the rest of the text.
* C75 Stripping line breaks from comments removes nothing else (`C75_comment_leading_newline_refuted`): A leading line break always survives, so the rest of the comment becomes code; and characters that are not line breaks are lost.
* C76 Simulator orders signed operands (`C76_signed_order_refuted`): ordering of signed operands
* C77 Simulator gives unary minus and and-reduction a value (`C77_negation_and_reduction_have_a_value_refuted`): -x and &x have no value at all, whatever x is
* C78 Simulator sign-extends (`C78_sign_extension_refuted`): a signed value that is widened keeps its bit pattern: never sign-extended
* C79 Simulator bit access (`C79_bit_read_refuted`): reading bit i of a scalar returns the i+1 bits from i on; reading a range is an error; writing bit i of a narrow scalar clears all other bits
* C80 Simulator: the last non-blocking assignment wins (`C80_last_nonblocking_wins_refuted`): two non-blocking assignments to one variable: the first wins, the last should
* C81 Simulator compares with negative constants (`C81_negative_constant_equality_refuted`): a variable holding the pattern of a negative constant is not equal to it
* C82 Simulator case selection for wide selectors (`C82_wide_case_refuted`)
* C84 A passed latch check covers every bit (`C84_partial_assignment_is_a_latch_refuted`): a block that only ever assigns one bit of x is accepted; the other bit is a latch
* C85 A passed latch check covers loops (`C85_loops_in_latch_check_refuted`): assignments under a loop that never iterates, or behind a break, count
* C86 The case coverage check is defined for every selector (`C86_wide_case_check_refuted`): a case over 32 or more bits all of whose branches match is undefined behaviour
* C87 Enable condition of a default branch (`C87_default_condition_refuted`): ---- C87: default branches of case statements with more or fewer cases ----
* C88 Multiple drivers from loops are detected (`C88_loops_are_not_checked_refuted`): ---- C88: loops and computed selections are not looked at ----
* C89 The multiple-driver verdict is a function of the design (`C89_order_independent_refuted`)
* C90 Distinct states get distinct codes even across nested machines (`C90_distinct_states_distinct_codes_refuted`)
* C91 A state that declares an output as kept leaves it unchanged (`C91_kept_output_refuted`)
* C92 Mealy outputs are those of the transition taken (`C92_mealy_outputs_refuted`)
* C93 Every declared machine is generated or rejected (`C93_final_states_refuted`): a state without transitions makes generation fail
* C94 A port cannot be declared under the name of a variable (`C94_port_over_variable_refuted`): the declaration succeeds, the name still means the variable, and asking for the port treats the variable as a port
* C95 A removal that fails changes nothing (`C95_failed_removal_refuted`): removing a connected port throws but has already dropped it from the ports
* C96 Declaring a variable again gives the same variable (`C96_redeclaring_an_array_refuted`): ---- C96: declaring an array again ----
* C97 The port table follows the variable table (`C97_removed_port_refuted`): ---- C97: removing a port with remove_var, or renaming it with rename_var ----
* C98 Renaming a variable never loses a variable (`C98_rename_collision_refuted`): neither name leads to the renamed variable any more
* C99 Renaming a variable leaves other names alone (`C99_rename_with_interface_refuted`): ---- C99: renaming a variable of a module that has interfaces ----
* C100 Declaring a parameter twice is rejected (`C100_parameter_refuted`): ---- C100: declaring a parameter twice ----
* C102 Inlining avoids names already used in the target (`C102_inlining_loses_a_variable_refuted`)
* C103 An external module's name is not given to another module (`C103_external_name_shared_refuted`): An external module and a module of the design with the same name: whatever their contents, some module of the design still has the external module's name afterwards.
* C105 Hashing is defined for every nesting depth (`C105_deep_nesting_undefined_refuted`): An assignment 31 or more ifs deep makes the hash undefined (a shift by the nesting level).
* C106 Levels of an instance hierarchy of any size (`C106_levels_read_freed_memory_refuted`): With 32 or more instances freed memory is read.
* C107 Undecided assignments in sequential code become non-blocking (`C107_unchecked_sequential_becomes_blocking_refuted`): In a sequential block whose check is switched off, undecided assignments become blocking.
* C108 Non-blocking assignments in initial and latch code are reported (`C108_initial_and_latch_kinds_unchecked_refuted`): Non-blocking assignments in initial and latch code pass.
* C109 Every module can be sorted (`C109_sorting_rejects_other_statements_refuted`): A module with an initial block, a function, a comment or an assertion cannot be sorted.
* C110 Assertions can be removed from sequential code (`C110_assertion_removal_undefined_refuted`): Assertion removal treats the clock of a sequential block as a statement.
* C111 Stripping reaches every block (`C111_initial_latch_function_not_stripped_refuted`): Statements written directly in an initial, latch or function block are not removed.
* C112 Deferred removal with repeated statements (`C112_deferred_removal_removes_all_copies_refuted`): A statement added twice loses both copies when removed once.
* C113 Deferred removal followed by adding the statement again (`C113_statement_added_again_is_lost_refuted`): A statement added again after its removal is lost.
* C114 Wiring an inout port does not depend on argument order (`C114_inout_depends_on_order_refuted`): With an inout port the second argument is always the target, or the other order is rejected.
* C115 Wiring never drives an input of the module itself (`C115_interface_order_drives_input_refuted`): An input port of the module wired to an input of an interface instance: with the interface signal second, the module's input is driven.
* C116 Wiring rejects signals that cannot be reached (`C116_foreign_signals_are_accepted_refuted`): A module elsewhere is taken for an instance with the same instance name; signals of modules elsewhere are never rejected.
* C117 Flipping a port bundle keeps its name (`C117_flip_loses_the_name_refuted`): The name is lost.
* C118 A rejected bundle field is not defined (`C118_rejected_inout_remains_refuted`): A rejected inout field stays in the bundle, and flipping drops it.
* C120 A rejected bundle connection adds no wires (`C120_rejected_connection_leaves_wires_refuted`): A rejected connection leaves the wires of the earlier fields.
* C121 Coverage counts case branches and loop bodies (`C121_case_branches_and_loops_are_missed_refuted`): Branches of case statements and bodies of loops are never counted.
* C122 Coverage added after an analysis is used (`C122_later_coverage_is_ignored_refuted`): Coverage added to a run after an analysis is ignored.
* C124 The branch rate is at most one in general (`C124_branch_rate_above_one_refuted`): Blocks without debug information are counted as covered branches but not as branches.
* C128 A source line is reported with the hits of all its statements (`C128_hits_of_instances_are_lost_refuted`): of the statements on one source line only one is counted, so that a line one instance of a generator ran can be reported without hits, depending on the order of a hash set
* C129 Counts of any size are kept (`C129_large_counts_are_truncated_refuted`): the count is kept modulo 2^32, so that a line run exactly 2^32 times counts as not run
* C130 Values of coverage data may contain quotes (`C130_quote_in_a_value_refuted`): a value with a quote in it ends the data: the pairs after it are lost
* C132 Coverage hits of other directories do not count (`C132_directories_are_ignored_refuted`): the directory is not looked at: a hit in another file of the same base name counts
* C134 All columns of a row are recovered exactly (`C134_last_column_has_a_blank_refuted`): the columns of a row are recovered exactly, but the last one comes with a blank before it
* C136 The root path is a directory of all files (`C136_root_is_not_a_directory_refuted`): the root is not always a directory of every file: it can be the start of a directory name
* C137 Names without directory are reported as they are (`C137_names_without_directory_refuted`): with names without directory, the first file is taken as the root and reported with an empty name, and the names of others are cut
* C138 Loops counting down stop at their bound (`C138_counting_down_past_zero_refuted`)
* C139 Loops whose step leads away from the end run nothing (`C139_step_away_from_the_end_refuted`): the comparison follows the bounds and not the step: a loop whose step leads away from the end declares nothing but runs its body
* C141 Accepted indices over several loops fit (`C141_two_loop_variables_refuted`): with two loop variables the case that both are lowest is not tried
* C142 Inputs fully driven by parts are left alone (`C142_fully_driven_by_parts_refuted`): an input all of whose bits are driven by parts, or that is indexed by a variable, makes it read the first element of an empty list
* C143 Inputs of any width can be zeroed (`C143_wide_inputs_refuted`): inputs of more than 64 bits that nothing drives
* C144 Arrays of several dimensions are zeroed exactly (`C144_two_dimensions_refuted`): an array with two dimensions: with only its first element missing, the driven elements beside it are zeroed as well; with nothing connected it is rejected
* C145 Zeros are assigned where the input is driven (`C145_zero_outside_the_parent_refuted`): every zero is a statement of the instantiated module and not of the one that instantiates it
* C146 Banked SRAM shows on a write what one SRAM shows (`C146_output_during_a_write_refuted`): on a write one SRAM shows the old word at the address; with banks, a write to the second bank after a read of the first shows a word of the first bank
* C147 Every multiple of a bank can be built (`C147_number_of_banks_refuted`): a memory of the size of one bank is rejected, and one of more than 64 banks shifts by too much
* C148 Processes partly under an enable are frozen as a whole (`C148_partly_enabled_process_refuted`): a process that only begins with an if on the enable is left as it is, and its other statements run with the enable low
* C149 The reset works whatever the enable, also beside other statements (`C149_reset_beside_other_statements_refuted`): next to other statements, or under a condition with other variables, the reset branch is disabled with the rest
* C150 Registers without synchronous reset get one when others already have one (`C150_partial_reset_refuted`): a process that resets one of its registers already gets no reset for the others
* C151 A reset above the enable works whatever pass ran first (`C151_order_of_insertion_refuted`): a reset that is to act above the enable does so only if the enable was inserted before; inserted afterwards, the enable disables the reset
* C152 Modules that read their own outputs can be pipelined (`C152_module_reads_its_output_refuted`)
* C153 Element widths given by an expression follow its value (`C153_element_width_refuted`): the element width of a variable whose width is an expression becomes the value of the parameter
* C154 A width parameter taken away has no effect any more (`C154_width_parameter_taken_away_refuted`): a variable whose width parameter was taken away still changes its width with the parameter
* C155 A dimension follows the parameter it was given last (`C155_dimension_given_to_another_parameter_refuted`): a dimension given to another parameter goes back to the first one when that is set
* C156 A parameter follows the one it was set from last (`C156_parameter_set_from_another_refuted`): a parameter set from another one still follows the first one
* C157 A parameter set to a number is printed as that number (`C157_parameter_set_to_a_number_refuted`): a parameter set to a number keeps the parent whose name is printed for it (src/expr.cc:1201-1207)
* C158 Parameters set from each other are reported (`C158_parameters_set_from_each_other_refuted`): parameters set from each other: the recursion does not end
* C161 Dead code elimination keeps clocks of instances (`C161_instance_clock_refuted`)
* C162 Dead code elimination keeps external modules (`C162_external_instance_refuted`)
* C163 Dead code elimination removes variables dead code reads through slices (`C163_sliced_dead_variable_refuted`)
* C165 Equal negative constants are ordered as equal (`C165_compare_equal_negative_refuted`): ... and on two equal negative numbers each of the four orderings is always wrong
* C167 Removing single-use wires keeps every signal driven once (`C167_input_chain_refuted`)
* C168 Removing single-use wires keeps clocks connected (`C168_clock_chain_refuted`)
* C169 Removing single-use wires keeps the order of blocking assignments (`C169_blocking_order_refuted`)
* C170 Removing single-use wires ends (`C170_ends_refuted`)
* C172 Tying constants to ports keeps what the port is assigned (`C172_expression_lost_refuted`)
* C173 Tying constants to ports keeps when a constant is assigned (`C173_register_refuted`)
* C174 Tying constants to ports keeps clocks connected (`C174_clock_lost_refuted`)
* C176 Moving the uses of a signal leaves none behind (`C176_extension_refuted`)
* C177 Moving the uses of a signal never fails (`C177_index_refuted`)
* C179 Only instances without behaviour are taken for pass-through modules (`C179_register_refuted`)
* C180 Nothing refers to a removed pass-through module (`C180_condition_refuted`)
* C182 The sinks of a signal are exactly the assignments that use it, also after parts of signals were disconnected (`C182_slice_refuted`)
* C183 Removing a statement or taking an assignment back updates the sources and sinks (`C183_remove_refuted`)
* C184 A statement that is added again is known to its signals (`C184_refuted`)
* C186 An expression with signed and unsigned operands means the same wherever it is used (`C186_division_refuted`)
* C188 Operands of different widths are never cut off (`C188_refuted`)
* C189 A constant operand that does not fit is not silently changed (`C189_refuted`): a constant that does not fit is taken
* C190 Building an expression does not change the expressions that exist (`C190_refuted`)
* C193 A passed reset check means every reset works (`C193_refuted`): other tests of the reset, and casts
* C194 The verdict of the reset check does not depend on the order of the processes (`C194_refuted`): the order of the processes matters
* C196 A design that passes the check of combinational loops has a stable state (`C196_two_wires_refuted`)
* C197 An assignment that is stable after running once is not reported as a loop (`C197_refuted`)
* C199 A passed connectivity check means every bit is driven (`C199_index_refuted`): an element chosen by an index counts for every bit, also those no index value reaches
* C200 A design whose outputs and instance inputs are driven passes the connectivity check (`C200_refuted`): an inout port of the top module has to be driven from inside
* C203 Assignments that pass the check of names use visible signals only (`C203_sibling_refuted`)
* C207 Clocked processes of a simulated design run in parallel (`C207_shift_register_refuted`): the statement of C205 without apart is false
* C208 A simulated wire follows all the signals of its expression (`C208_condition_refuted`): ---- C208: a wire with a conditional expression does not follow its condition ----
* C209 Constants reach the signals they are assigned to (`C209_constant_refuted`): ---- C209: a process that reads nothing never runs ----
* C211 Overlapping slices of a signal are told of changes of their bits (`C211_shadowed_refuted`): a part all of whose bits belong to parts met before is never told
* C212 Evaluation reads only live elements of its queue (`C212_front_after_pop_refuted`): ---- C212: the element of the queue is read after it was removed ----
* C214 Width expressions keep their meaning in ranges (`C214_width_expression_refuted`)
* C215 Variables are declared with the shape and type they were given (`C215_parameter_of_one_refuted`): C215
* C217 Port headers can be printed for every combination of directions (`C217_order_refuted`): C217
* C219 Enum parameters elaborate to their values (`C219_enum_parameter_refuted`): C219
* C221 Enum definitions are legal SystemVerilog (`C221_equal_values_refuted`): C221
* C222 The else action of a property runs when the property fails (`C222_property_action_refuted`): C222
* C226 Every module knows the file it is in (`C226_file_name_refuted`): C226
* C227 Package headers without an include guard are well formed (`C227_header_without_guard_refuted`): C227
* C228 Every module can be wrapped (`C228_clash_refuted`): C228
* C230 Lines recorded for clocked blocks (`C230_clocked_blocks_refuted`): C230
* C231 Functions without ports do not disturb recorded lines (`C231_function_without_ports_refuted`): what is noted among the statements is early by one line for each function without ports before them
* C232 Lines recorded for port connections (`C232_connections_refuted`): C232
* C233 Case statements have a line (`C233_case_statements_refuted`): C233
* C234 The module is entered under its line (`C234_module_entry_refuted`): C234
* C236 An argument may be used twice (`C236_repeated_argument_refuted`)
* C238 Calls pass formals only (`C238_extra_argument_refuted`): names that are no formals are accepted too, and printed
* C239 The declared result of a function has the sign of its returns (`C239_result_sign_refuted`): the declared result has no sign
* C241 System functions with many arguments (`C241_many_arguments_refuted`)
* C242 The number of arguments of system tasks is checked (`C242_count_refuted`): functions without a result take any number of arguments
* C243 Signs of system functions (`C243_sign_refuted`): most integer results are taken to be unsigned
* C245 Imports have the widths of every function (`C245_widths_refuted`): widths are not compared; the import has those of the first
* C247 C types of wide values (`C247_wide_refuted`): C247
* C248 Attributes of DPI functions can be taken back (`C248_attributes_refuted`): saying that a function is not one makes it the other
* C249 Calls of DPI functions have the type of the import (`C249_type_of_call_refuted`): a call of a DPI function is an unsigned value of the width asked for, its C type is signed and may be wider
* C251 Ports and variables of an interface have different names (`C251_names_refuted`): a port and a variable of one name
* C252 Unknown names in a modport are rejected (`C252_unknown_refuted`): names that do not exist are ignored
* C253 Inout ports in modports (`C253_inout_refuted`): ports of both directions
* C255 Text of a modport with a name on both sides (`C255_both_refuted`): a name that is both
* C257 Directions of variables through a modport (`C257_variables_refuted`): a variable that is an input of a modport is an output of its reference
* C259 Modports of interfaces of one name (`C259_modports_refuted`)
* C260 Designs that use modports only (`C260_modports_only_refuted`): a design that uses modports only
* C262 Signals declared after an interface (`C262_later_signal_refuted`): a signal declared later may take the name of an instance
* C264 Connections of interface instances (`C264_slices_refuted`): slices and expressions connected to a port of an interface are not printed
* C266 Inlining keeps the registers of the enclosing generator (`C266_register_refuted`)
* C267 Inlining keeps what an instance computes from its own outputs (`C267_own_output_refuted`)
* C268 The result of inlining does not depend on the order of visits (`C268_order_refuted`)
* C269 Removed ports are not named after inlining (`C269_left_refuted`)
* C270 Inlining only looks at variables and statements that exist (`C270_freed_refuted`)
* C271 Inlining succeeds on instances connected to each other (`C271_instance_refuted`)
* C273 No variable of an inlined instance is lost to a name of the generator (`C273_clash_refuted`): without that condition a variable of the instance can be lost to one of the generator: the name in front is compared with the names of the instance, not with those of the generator
* C276 Connecting keeps processes that read the inputs they drive (`C276_read_back_refuted`)
* C277 Inputs left open are reported (`C277_open_refuted`): an input that nothing drives is connected like the others, to a signal that is made for it
* C278 Outputs are used through their connections (`C278_test_refuted`)
* C279 Instances need not be decoupled first (`C279_alone_refuted`)
* C282 A removed variable is named nowhere (`C282_event_refuted`): a variable may be removed although a process waits for its edges: they are not recorded. Any such variable that nothing else uses is
* C285 Loops of instances connect as before (`C285_pairs_refuted`): the loop makes the same connections whenever one is made: pairs of bits are not kept
* C286 Elements driven by instances are driven once (`C286_drivers_refuted`): a bit that an output drives is driven once after: the assignment that copied to it stays beside the loop
* C287 Outputs may be left open when instances become loops (`C287_open_refuted`)
* C288 Instances that share a constant become a loop (`C288_constant_refuted`): instances in step that share a constant become a loop: an exception is thrown
* C290 Loops of instances without a common name (`C290_no_common_refuted`): instances whose names have nothing in common get a loop named after the definition: the name is not found out without reading outside a string
* C292 Handles name iterations in any order (`C292_order_refuted`): in any order
* C293 The name of a loop of instances is new (`C293_clash_refuted`)
* C296 Returned sequences stay usable (`C296_stale_refuted`): sequences that were returned can still be used: implying something else destroys what followed
* C297 What is written is a property (`C297_range_refuted`): what is written is a property: a wait from later to earlier is accepted and written
* C299 One clock is one clock (`C299_one_clock_refuted`): one clock is found: a clock that goes to two clock ports is counted twice
* C300 Properties that wait have a clock (`C300_no_clock_refuted`): a property that waits for ticks has a clock or is reported: without an implication neither happens
* C301 Properties are about each instance (`C301_instances_refuted`)
* C303 Generators with different properties are different modules (`C303_shared_refuted`): generators with different properties are different modules
* C305 The failure statement of a property is for failures (`C305_property_refuted`)
* C308 Arms with only assertions or events stay arms (`C308_arm_refuted`): removing events, or assertions, changes nothing: an arm with nothing else falls to the default
* C309 An if with only an assertion can be removed (`C309_if_refuted`): the passes do not crash: an if that holds nothing else
* C310 No assertion or event is left in any block (`C310_blocks_refuted`): nothing of the kind is left: in latch, initial, final and function blocks it stays
* C312 A clock is driven by a clock (`C312_data_port_refuted`)
* C313 Bits of a typed port are typed (`C313_bits_refuted`): bits of a typed port are as the port
* C315 Enumerations get their own values (`C315_same_name_refuted`): it is the same enumeration
* C318 A constant can be used in several assignments (`C318_shared_constant_refuted`): one constant used twice
* C320 Parts of results are not assigned (`C320_bits_of_result_refuted`): results of operators are not assigned
* C322 A variable can be cast to two enumerations (`C322_two_enums_refuted`): casts to two enumerations
* C323 Clocks have one bit (`C323_one_bit_refuted`): a clock, or what is cast to one, is one bit
* C325 A cast of an array has the right width (`C325_array_refuted`)
* C328 A variable elsewhere has no name from an instance (`C328_prefix_refuted`): a variable elsewhere is refused
* C330 Extensions have hierarchical names (`C330_extension_refuted`): extensions
* C331 Hierarchical texts tell expressions apart (`C331_condition_refuted`): different expressions have different texts
* C333 Operators name variables below an instance (`C333_operators_refuted`): an expression over instances below the scope
* C335 The drawing of a nested machine has one circle for each state (`C335_inner_machine_refuted`): the machine inside
* C337 Hierarchical names tell states apart whatever the names (`C337_underscore_refuted`): names with an underscore
* C340 A machine added to another machine leaves the first one (`C340_added_again_refuted`): a machine that is added again
* C341 Giving a state a move always ends (`C341_cycle_refuted`)
* C344 The table of outputs shows default values (`C344_default_refuted`): an output with a default value
* C346 Reads of bits of a child's input port are kept (`C346_bits_refuted`): bits of the port
* C347 A child's input port as an index on the left is kept (`C347_index_refuted`): the port as an index on the left
* C348 Reads of a child's input port that is assigned in parts are kept (`C348_parts_refuted`): a port that is assigned bit by bit
* C349 Reads of a child's input port that is given a constant are accepted (`C349_constant_refuted`): a port that is given a constant, whatever else is in the design
* C351 Adding a child under a name that is taken changes nothing (`C351_failed_add_refuted`): a call that throws changes nothing. A child of 1 gets a name under which its parent does not know it
* C352 Removing a generator that is not a child changes nothing (`C352_not_a_child_refuted`): a generator that is not a child
* C353 A generator has one parent (`C353_two_parents_refuted`): a generator with two parents
* C355 No assignment mentions a child that was removed (`C355_inout_refuted`): a port that goes both ways, and an input that is read
* C357 A replacement that throws changes no assignment (`C357_failed_replace_refuted`): a replacement that throws changes nothing
* C358 A replacement keeps the place of the child (`C358_place_refuted`): the new child in the place of the old one
* C360 A struct that is declared elsewhere gets no typedef (`C360_external_refuted`): a struct that is declared elsewhere, as a field of one that is not
* C361 In an accepted design typedefs come after those they use (`C361_order_refuted`): structs that are accepted, for all orders. The second B is taken for the first one because names of nested structs are not compared, and the D inside it makes D come before B, which it uses
* C363 Port bundles of one name with different fields are rejected (`C363_different_refuted`): bundles that are accepted, with different fields
* C365 No statement mentions a port that was removed by the conversion of bundles (`C365_own_output_refuted`): a port that is read where it is written
* C367 Arrays of any element width can be set in the simulator (`C367_wide_refuted`): elements of more than 32 bits
* C369 One number can be given to a packed array of any size (`C369_large_refuted`): arrays of more than 64 bits
* C370 A call to set an array that throws changes nothing (`C370_thrown_refuted`): a call that throws
* C371 A part of an array can be read in the simulator (`C371_part_refuted`): parts of arrays that have a value
* C372 A part of an array can be assigned in the simulator (`C372_part_refuted`): assigning its elements to a part of an array
* C373 The values stored for an array fit its element width (`C373_width_refuted`): what is stored has the width of an element
* C375 Signed numbers can be given for an array (`C375_signed_array_refuted`): signed numbers for an array
* C378 The synthesis check rejects only what cannot be synthesised (`C378_builtin_refuted`): nor is anything else rejected. A built-in function in an expression always is
* C379 The synthesis check finds final blocks (`C379_final_refuted`): final blocks. A kind that is Final can be put everywhere
* C380 The synthesis check looks into every expression (`C380_hidden_refuted`)
* C383 Two different packed structs of one name are rejected even if there are structs inside (`C383_nested_refuted`): structs with structs inside
* C385 Every value of an accepted index is in range (`C385_range_refuted`): every value of an accepted index selects something
* C386 An accepted index can select every element (`C386_all_refuted`): an accepted index can select everything
* C387 A width parameter does not change which indices are accepted (`C387_param_refuted`): an index of the width that a variable with a width parameter allows
* C390 A statement added to a second block leaves the first (`C390_two_blocks_refuted`): adding a statement to another block
* C391 A statement in a loop can be removed from its parent (`C391_loop_refuted`): removing a statement from the loop it is in, after the loop was added to a block
* C392 Replacing a statement of a block keeps the block well-formed (`C392_set_child_refuted`): what add_stmt rejects is accepted by set_child
* C393 A scope variable can be overridden (`C393_override_refuted`): a scope variable that is overridden
* C394 Cloning a block does not change the original (`C394_clone_refuted`): cloning a block leaves its statements alone
* C395 An if cannot be put in its own body (`C395_cycle_refuted`): an if in its own body
* C397 A statement sees the innermost definition (`C397_innermost_refuted`): a statement inside two ifs that define one name is given the value of the outer one
* C398 Scope variables reach statements in loops (`C398_loop_refuted`): no statement in a loop is given anything from the ifs around the loop, whatever they define
* C399 Overriding a scope variable in nested statements (`C399_override_refuted`): asking for an existing value to be replaced changes nothing, in the statement and in all it contains
* C401 All drivers are listed (`C401_ports_refuted`): nothing that comes from ports, or from parts of variables, is listed
* C403 The target of an SSA attribute is a name (`C403_no_colon_refuted`): without a colon the variable is taken to be the attribute itself
* C405 Mocking a hierarchy always gives one (`C405_repeated_refuted`): a name that is used twice makes the generator of that name its own parent
* C407 Branches do not see each other (`C407_branches_refuted`): the assignments of one branch are what the next branch sees, whatever the scopes are
* C409 Saving the debug database never fails (`C409_unrecorded_refuted`): wherever a loop, a latch, an initial or a final block, or a statement to be ignored, has a recorded statement in it, saving fails
* C411 All known sources are in the mapping (`C411_unlocated_refuted`): nothing of a generator without a source is there
* C413 Widths of the ports of a clone (`C413_param_refuted`): every port that is parametrised is one bit wide in the clone
* C414 Arrays of one element in clones (`C414_explicit_refuted`): no port of a clone is an array of one element
* C417 Unwired variables are not connected (`C417_all_refuted`): two variables that are wired twice, or in a block, stay connected
* C419 Moving line numbers of top-level statements (`C419_top_refuted`): the statements directly in the generator keep their old lines, whatever the design
* C421 A copied width follows the parameter it was written with (`C421_follows_refuted`): without the check, a copied width need not follow the parameter it was written with. One that names a parameter not set from the generator's has its value of the moment instead.
* C422 A copied ternary keeps its value (`C422_ternary_refuted`): a copied ternary does not keep its value: it is rebuilt without its condition.
* C424 A variable made from another takes over its parametrisation (`C424_var_like_refuted`): a variable made from another does not take over its parametrisation: whatever the other is tied to, it has the width and sizes of the moment, tied to nothing.
* C426 A variable that takes over another's slices keeps its own (`C426_own_refuted`): a variable that takes over another's links does not keep its own: it has only the slices of the other, and none of the concatenations it was in.
* C427 A variable that is part of a concatenation can be exchanged (`C427_concat_refuted`): a variable that is part of a concatenation cannot be exchanged: the concatenation is wider than either variable, and it is refused.
* C430 The order of the blocks of a switch never depends on memory (`C430_minus_one_refuted`): the order is not decided by the values when one case is -1 and there is a default: both count as the largest unsigned value, and either may come first.
* C431 A case can be removed by its value (`C431_remove_refuted`): removing a case by a constant of its value need not remove it: the object has to be the one the case was first added with.
* C432 Several statements can be added to any case at once (`C432_several_refuted`)
* C435 Raw text keeps its blank lines (`C435_blank_refuted`): blank lines are not kept: no line of raw text is ever empty.
* C437 A comment of several lines keeps its words (`C437_newline_refuted`): a comment of several lines does not keep its words: those on either side of a newline become one.
* C439 Width of a port in an ANSI port list (`C439_width_refuted`): a port in a list of declarations need not have the width it is declared with: without a range of its own it has the width of the declaration before.
* C440 Ports declared with a type (`C440_type_refuted`): a port declared with a type is not read right: the type is taken for a port.
* C441 Ports with a parametrised width (`C441_expression_refuted`): a port whose width is an expression cannot be read: the program reads past the end of its tokens.
* C442 Ports on lines of their own (`C442_newline_refuted`)
* C443 Ranges next to the keyword (`C443_no_blank_refuted`): a range that follows the keyword without a blank is not read: the declaration is refused.
* C445 Connections of part of a port (`C445_part_refuted`): a connection of part of a port is missed at one end, and the two ends do not agree.
* C447 Outputs that are connected (`C447_outside_refuted`): an output that is said to be connected need not be connected to anything outside: it is enough that its own generator reads it.
* C449 Wiring interfaces that do not fit (`C449_undone_refuted`): when the interfaces do not fit, the wiring is refused only after the ports that come first are connected.
* C452 Bits selected by a signal in the debug database (`C452_bits_refuted`): for a bit selected by a signal only one bit is held: a variable that is no array has one element.
* C453 Selected elements of different members in the debug database (`C453_members_refuted`)
* C454 Structs inside structs in the debug database (`C454_inner_refuted`): an assignment to a member that is itself a struct leaves nothing in the database.
* C455 Mapping a variable again (`C455_again_refuted`)
* C457 Elements of arrays in a simulation run (`C457_packed_refuted`): an element of an array that is packed, as arrays are unless told otherwise, cannot be given.
* C458 Variables named like instances in a simulation run (`C458_shadowed_refuted`): a variable that has the name of an instance beside it cannot be given.
* C459 Marking an unknown signal (`C459_mark_refuted`): marking a name that selects nothing is no error but undefined.
* C460 States that are refused (`C460_kept_refuted`): a state one of whose names is refused is kept, with the values given before it.
* C461 Indices of signals (`C461_index_refuted`): an index with something after the number is taken for the number.
* C466 Circular state machines (`C466_shared_refuted`): a circular dependency is reported only when there is one. Refuted: any state machine with two parents that are both below the root is taken for one
* C467 Parents of state machines (`C467_two_parents_refuted`): the parent of a state machine is the one that has it as a child. Refuted: adding it to another one changes its parent and leaves it a child of the first
* C469 Hidden resets (`C469_hidden_refuted`): every if statement that tests the reset is checked. Refuted: a reset under a cast, in the condition of a conditional expression, in an index, an argument of a call, or in an expression of which bits are picked is not found
* C471 Hidden loop variables (`C471_hidden_refuted`): an expression that uses a loop variable is taken to. Refuted: not in an index, a cast, a call or the condition of a conditional expression
* C474 Large 64 bit constants (`C474_upper_half_refuted`): an unsigned constant of 64 bits can have every value of 64 bits. Refuted: the upper half is refused
* C475 Negative unsigned constants (`C475_negative_refuted`): a negative value is refused for an unsigned constant. Refuted: not for one of 64 bits, which gets another value
* C477 Quotes in string constants (`C477_quotes_refuted`): the text of a string constant is a literal of the string. Refuted: for every string with a quote, a backslash or an end of line
* C478 All strings as constants (`C478_string_refuted`): a string of at most eight characters is taken. Refuted: no character outside ASCII is, nor is the empty string; more than eight are undefined
* C480 Every ordinary port can be copied (`C480_wide_refuted`): a control port made wider than one bit through its type cannot be copied.
* C481 Polarity of copied ports (`C481_active_refuted`)
* C483 Copies of arrays of structs (`C483_array_refuted`): an array of structs copied as a struct port is one struct.
* C484 Copies of struct ports from Python (`C484_python_refuted`): from Python, the copy of a struct port is an ordinary port without members.
* C486 Every generator can be wrapped (`C486_enum_input_refuted`): a generator with an input of an enumeration cannot be wrapped.
* C489 Matched values of events (`C489_match_refuted`): a field is matched by the value it was first given, and a later one is lost.
* C492 Shifts and quotients of loop variables keep their values (`C492_shift_refuted`): with a shift or a division the bits are not those of what it was.
* C493 Constants in assigned expressions (`C493_constant_refuted`): an expression with a constant that does not fit is refused, whatever its values.
* C494 Refused assignments change nothing (`C494_changed_refuted`): an assignment that is refused has changed the operands and the constants.
* C495 Taken assignments leave other expressions alone (`C495_shared_refuted`): an assignment that is taken gives a constant another width, and another expression with that constant has no width any more.
* C498 Generators named later (`C498_unnamed_refuted`): a generator whose name is taken away stays listed under it, and one that gets its first name later is not listed under it.
* C499 Names that exist (`C499_exists_refuted`): a name is said to exist as soon as a generator had it, also when none has it any more.
* C501 Unique generators have names of their own (`C501_unique_refuted`): two generators with contents and the same name can both be unique: one that got its name later is not counted.
* C502 Clones follow their originals (`C502_clone_refuted`): a clone keeps the name its original had when it was cloned, and so does its instance.
* C504 All outputs of stubs (`C504_output_refuted`): a stub with a signed output, one of an enumeration or an array that is not packed is refused, and a wide one shifts too far.
* C505 Stubs zeroed twice (`C505_twice_refuted`): a stub with an output is refused the second time.
* C506 Refused stubs are unchanged (`C506_changed_refuted`): a stub that is refused may have got statements.
* C507 Stubs drive outputs only (`C507_inout_refuted`): a stub drives its bidirectional ports.
* C510 Blocks with two names (`C510_two_refuted`): a block with one name is printed with it. Of two names of a block one is not printed, and which one it is depends on the order of a hash table.
* C511 Names of inlined blocks (`C511_inlined_refuted`): where every block is named in its own generator and nothing is inlined, a block that was given a name is printed with one. Inlining moves the blocks and leaves their names behind.
* C512 Labels and variables in one scope (`C512_scope_refuted`): no two variables of a generator, and no two of its labels, have the same name; a label and a variable may have, and both are in the scope of the module.
* C514 Setting the comment of a child (`C514_again_refuted`): the comment of a child is the one that was set first: another comment is ignored.
* C515 Comments of renamed children (`C515_renamed_refuted`): a comment for a name that no child has is kept for the first child that gets the name, and a child that is renamed to it loses its own.
* C518 Concatenations after an exchange (`C518_moved_refuted`): once a signal was exchanged for another in a concatenation, asking for the concatenation of the first one returns that of the other.
* C519 Concatenations and extensions after a change of width (`C519_resized_refuted`): after the width of a variable was changed by its parameter, a concatenation or an extension that is asked for again has the width, and passes the check, of before.
* C520 The sign of a concatenation (`C520_sign_refuted`): the concatenation of signed signals counts as signed; in SystemVerilog a concatenation is unsigned.
* C522 Visits that take out earlier children (`C522_before_refuted`): a visit that takes out one child before it does no harm; one that takes out two makes the walk miss a child that is still there.
* C523 Visits without memory (`C523_again_refuted`): a walk that does not remember what it visited visits a child again if its visit adds one before it, and does not end if every visit does so.
* C526 Later defaults of outputs (`C526_default_refuted`): declaring an output again changes nothing and is not refused; so a default that comes with a later declaration is lost.
* C527 Order of default assignments (`C527_order_refuted`): where at most one declared output is without a value of its own, the order of the assignments does not depend on the table; with two it does.
* C530 Indentation around a level (`C530_less_refuted`): a closing line is never indented more than the level around it, but less where no line was printed at that level or below it yet.
