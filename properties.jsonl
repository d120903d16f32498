{"id": "C01", "title": "Unsigned constant arithmetic is modular", "statement": "Evaluating +, -, *, /, &, |, ^ on two unsigned operands that fit a common width returns the SystemVerilog result, i.e. the exact integer result reduced modulo 2^width (bitwise result for the bitwise operators, truncated quotient for a non-zero divisor).", "quantifier": "every width 1..64 and every pair of operand values that fit it", "why_tests_cant": "2^(2w) operand pairs for every width up to 64; the mask/negate arithmetic is different at each width and has boundary cases at 1, 63 and 64", "anchors": ["src/eval.cc:eval_bin_op", "src/eval.cc:invert", "src/eval.cc:two_complement", "src/eval.cc:truncate"]}
{"id": "C02", "title": "Signed constant arithmetic is two's complement", "statement": "Evaluating +, -, * and / on two signed operands returns the two's complement encoding of the exact integer result (quotient truncated towards zero), modulo 2^width.", "quantifier": "every width 1..63 (64 is C49) and every pair of bit patterns, read as signed numbers", "why_tests_cant": "the sign/absolute-value case split and the most negative value only go wrong on isolated bit patterns", "anchors": ["src/eval.cc:eval_bin_op", "src/eval.cc:two_complement"]}
{"id": "C03", "title": "Constant comparison is the order on the represented numbers", "statement": "Evaluating ==, <, <=, >, >= returns 1 exactly when the relation holds between the represented numbers (unsigned, or two's complement when the operation is signed), and 0 otherwise.", "quantifier": "every unsigned width 1..64 and signed width 1..63 and every pair of bit patterns, except an ordering of two equal negative numbers", "why_tests_cant": "a wrong answer can be confined to e.g. equal negative operands; sampling pairs at 64 bits never meets them", "anchors": ["src/eval.cc:eval_bin_op"]}
{"id": "C04", "title": "Constant shifts agree with SystemVerilog", "statement": "Logical right shift divides the unsigned value by 2^n; arithmetic right shift divides the signed value by 2^n rounding down.", "quantifier": "every width 1..64, every value, every shift amount below 64 (arithmetic shifts of negative numbers are C50)", "why_tests_cant": "error depends on the low bits of negative values; shift amounts >= 64 are undefined in C++", "anchors": ["src/eval.cc:eval_bin_op"]}
{"id": "C05", "title": "Constant unary and reduction operators agree with SystemVerilog", "statement": "~ complements exactly the low width bits, unary minus is negation modulo 2^width, unary plus is the identity, |x is 1 iff some bit is set, &x is 1 iff all width bits are set, ^x is the parity of the bits.", "quantifier": "every width 1..64 and every value that fits (complement and negation at 64 bits are C49, & and ^ reductions above 32 bits are C51)", "why_tests_cant": "the C++ uses a 32-bit popcount, so behaviour changes above 32 bits only", "anchors": ["src/eval.cc:eval_unary_op"]}
{"id": "C06", "title": "Every evaluated constant fits its width", "statement": "Whenever constant evaluation of a unary, binary or conditional operator returns a value, the value is below 2^width; operators it does not support are rejected with an error and never yield a number.", "quantifier": "every operator, width 1..64, signedness and operand bit pattern", "why_tests_cant": "an overflowing intermediate result shows only at particular widths", "anchors": ["src/eval.cc"]}
{"id": "C07", "title": "Constants are accepted iff representable", "statement": "Creating a constant with a given width and signedness succeeds exactly when the value is representable: -2^(w-1) <= v <= 2^(w-1)-1 when signed, 0 <= v <= 2^w-1 when unsigned (64-bit words read as unsigned). No later sequence of value, width or string changes, accepted or refused, leaves it unrepresentable.", "quantifier": "every 64-bit value, every width 1..64, both signednesses, every history of changes", "why_tests_cant": "boundary behaviour at each of 64 widths with 2^64 values", "anchors": ["src/expr.cc:Const::is_legal", "src/expr.cc:Const::Const"]}
{"id": "C08", "title": "Printed expressions mean what was built", "statement": "The SystemVerilog text of an expression tree, read back with SystemVerilog precedence and associativity, is an expression with the same value as the tree that was built.", "quantifier": "every well-typed expression tree of unary, binary and conditional operators, of any depth, in which the right operand of a non-associative operator is not an application of the same operator and no prefix minus is applied to a difference; for the character level also no - + & | prefix applied twice in a row", "why_tests_cant": "tree shapes are unbounded and parenthesisation mistakes need a specific operator nesting", "anchors": ["src/expr.cc:Expr::to_string", "src/expr.cc:expr_to_string"]}
{"id": "C09", "title": "Nested slices select the addressed bits", "statement": "Selecting elements or ranges of a (multi-dimensional) variable, repeatedly, yields a view whose bit range lies inside the parent, has the advertised width, and addresses exactly the bits that row-major packed-array indexing addresses; out-of-range selections are rejected.", "quantifier": "every array shape whose innermost dimension is not 1 (or that is a scalar), every chain of selections in which ranges are taken only of bits or of the last remaining dimension; total size below 2^32 bits", "why_tests_cant": "shapes and chains are unbounded", "anchors": ["src/expr.cc:VarSlice::VarSlice", "src/expr.cc:Var::operator[]", "src/util.cc:compute_var_high_low"]}
{"id": "C10", "title": "Packed struct fields tile the struct", "statement": "The bit ranges of the fields of a packed struct are pairwise disjoint, together cover exactly bits 0..bitwidth-1, follow declaration order, and have the declared widths.", "quantifier": "every struct definition (nested to any depth) with distinct member names and positive widths, total below 2^32 bits", "why_tests_cant": "number and widths of fields are unbounded", "anchors": ["src/expr.cc:PackedSlice::set_up", "src/expr.cc:PackedStruct"]}
{"id": "C11", "title": "Flattening an array enumerates each element once", "statement": "The flattened list of index tuples of an array contains every valid index tuple exactly once, in row-major order with the last index fastest, and nothing else.", "quantifier": "every list of positive dimension sizes", "why_tests_cant": "dimension lists are unbounded", "anchors": ["src/util.cc:get_flatten_slices"]}
{"id": "C12", "title": "clog2 is the least sufficient number of address bits", "statement": "clog2(n) is at least 1, is enough bits to index n entries, and (when above 1) no smaller number of bits is enough.", "quantifier": "every n >= 1 (clog2(0) is undefined behaviour)", "why_tests_cant": "boundary at each power of two", "anchors": ["src/util.cc:clog2"]}
{"id": "C13", "title": "Splitting a string on delimiters loses nothing else", "statement": "Tokenising a string returns, in order, exactly the maximal non-empty runs of non-delimiter characters; no token contains a delimiter.", "quantifier": "every string and every delimiter set", "why_tests_cant": "strings are unbounded", "anchors": ["src/util.cc:get_tokens"]}
{"id": "C14", "title": "If-to-case conversion preserves behaviour", "statement": "Turning an if/else-if chain that compares one variable with constants into a case statement leaves the effect of the block on every variable unchanged, for blocking and non-blocking assignments.", "quantifier": "every chain (any length, constants, bodies) and every state", "why_tests_cant": "chains, bodies and states are unbounded; duplicate constants are a corner case", "anchors": ["src/optimize.cc:TransformIfCase", "src/stmt.cc:SwitchStmt::add_switch_case"]}
{"id": "C15", "title": "Removing empty blocks preserves behaviour", "statement": "Deleting empty branches, empty case arms and blocks that became empty leaves the effect of the process on every variable unchanged; afterwards no then branch, case arm or nested block is empty, and a process is deleted only if it contained no proper statement.", "quantifier": "every statement tree whose inverted predicates are one bit wide (wider: C55), whose switches with a default have no empty arm (C53) and whose ifs have a non-empty branch (C54), and every state", "why_tests_cant": "statement trees and states are unbounded; the pass rewrites predicates and drops case arms", "anchors": ["src/optimize.cc:RemoveEmptyBlockVisitor"]}
{"id": "C16", "title": "Merging if statements preserves behaviour", "statement": "In a block marked for merging, fusing adjacent if statements that test the same expression against constants leaves the effect of the block unchanged.", "quantifier": "every block where the ifs testing one expression are adjacent (otherwise C58), only the first has an else (C56) and none changes the tested expression (C57); every order in which groups are visited and every state", "why_tests_cant": "blocks and states are unbounded and the visiting order follows pointer values", "anchors": ["src/optimize.cc:MergeIfVisitor"]}
{"id": "C17", "title": "Merging bitwise wires preserves connectivity", "statement": "Replacing the per-element assignments between two variables by one whole assignment connects every bit of the target to the same bit of the source as before.", "quantifier": "every module whose bits have one driver each and whose slice assignments connect equal indices (any widths, any other statements), and every clocked block of non-blocking assignments with the same restriction and every state", "why_tests_cant": "index permutations grow factorially", "anchors": ["src/optimize.cc:MergeWireAssignments"]}
{"id": "C18", "title": "Pipelining an output delays it by exactly n cycles", "statement": "Asking for n pipeline stages on an output makes the port equal, at every cycle t >= n, to what it would have been at cycle t-n without pipelining.", "quantifier": "every n >= 1, every input history of any length, every module that does not read its own outputs and whose processes assign them non-blocking, with new variables distinct from the others", "why_tests_cant": "histories and n are unbounded", "anchors": ["src/optimize.cc:PipelineInsertion"]}
{"id": "C19", "title": "A deasserted clock enable freezes the registers", "statement": "After automatic clock-enable insertion, a clock edge with the enable low (and reset inactive) leaves every register of the module unchanged, and an edge with enable high behaves as the original module.", "quantifier": "every sequential process that does not begin with an if on a clock enable, every state and every history of enables", "why_tests_cant": "processes and histories are unbounded", "anchors": ["src/optimize.cc:InsertClockIR"]}
{"id": "C20", "title": "Synchronous reset insertion", "statement": "After automatic synchronous-reset insertion, an edge with the reset asserted takes the registers to the same values as the asynchronous reset branch, and an edge with it deasserted behaves as the original process.", "quantifier": "every sequential process that is one if on an asynchronous reset (or its negation) without a synchronous reset in it, every state", "why_tests_cant": "processes are unbounded", "anchors": ["src/optimize.cc:InsertSyncReset"]}
{"id": "C21", "title": "Assignment kinds are resolved consistently", "statement": "After assignment-type fixing no assignment is left undecided; undecided assignments in combinational, function, initial and latch code and at the top level become blocking, in sequential code non-blocking; nothing else changes, and an explicit kind that conflicts with combinational, function or sequential code is reported as an error instead of being changed.", "quantifier": "every module statement tree; sequential blocks whose assignment check is not switched off", "why_tests_cant": "trees are unbounded", "anchors": ["src/transform.cc:AssignmentTypeVisitor"]}
{"id": "C22", "title": "Statement sorting is a stable permutation", "statement": "Sorting the top-level statements groups them by kind, keeps every statement exactly once and keeps the original order inside each kind; initial blocks end up last after initial sorting.", "quantifier": "every list of assignments, instances, latch, combinational and sequential blocks; for initial sorting every list of statements", "why_tests_cant": "lists are unbounded", "anchors": ["src/transform.cc:sort_stmts", "src/transform.cc:sort_initial_stmts"]}
{"id": "C23", "title": "A passed latch check means no inferred latch", "statement": "If the latch check accepts a combinational block then, whatever the inputs, executing the block assigns every variable the block ever assigns.", "quantifier": "every combinational block without return whose loops iterate at least once without break and whose case statements have distinct in-range constants and a selector narrower than 32 bits, and every state (partial slices: C84; other loops: C85)", "why_tests_cant": "paths through a block are exponential and blocks unbounded", "anchors": ["src/analysis.cc:LatchVisitor", "src/analysis.cc:check_stmt_condition"]}
{"id": "C24", "title": "A passed return check means every path returns", "statement": "If the function-return check accepts a function, every execution of the function reaches a return statement.", "quantifier": "every function body whose loops iterate at least once without break and whose case statements have distinct in-range constants and a selector narrower than 32 bits, every argument/state", "why_tests_cant": "paths are exponential", "anchors": ["src/analysis.cc:FunctionReturnVisitor", "src/analysis.cc:check_stmt_condition"]}
{"id": "C25", "title": "A passed multiple-driver check means one driver per bit", "statement": "If the multiple-driver check accepts a module then no bit of any variable is assigned from two different top-level drivers (processes, continuous assignments, child outputs).", "quantifier": "every module, every recorded order of the assignments; assignments to whole variables and constant slices outside loops (the rest: C88)", "why_tests_cant": "modules and slice overlaps are unbounded", "anchors": ["src/analysis.cc:MultipleDriverVisitor"]}
{"id": "C26", "title": "Unconnected input bits are zeroed exactly", "statement": "Zeroing unconnected inputs assigns 0 to exactly the bits of the input that no existing assignment drives.", "quantifier": "every input with one dimension and every set of driven slices inside it, not driving all bits by parts; up to 64 bits and whole elements of an array for the claim that it succeeds", "why_tests_cant": "2^w sets of driven bits", "anchors": ["src/transform.cc:ZeroGeneratorInputVisitor"]}
{"id": "C27", "title": "Fresh variable names are fresh", "statement": "The generator always returns a unique variable name that no variable of the module has, and always terminates.", "quantifier": "every set of fewer than 2^32 existing names, every prefix and base name", "why_tests_cant": "name sets are unbounded", "anchors": ["src/generator.cc:Generator::get_unique_variable_name"]}
{"id": "C28", "title": "Realised state machine implements the declared one", "statement": "The generated next-state and output logic follows the declared transitions: from any state, the first declared transition whose condition holds is taken, else the default, else the state is kept; outputs are those declared.", "quantifier": "every well-formed FSM family (any number of states, transitions and nested machines) with distinct qualified state names, at most one unconditional transition per state and state registers not used elsewhere; every input history; outputs: Moore machines, states that assign at least one output, output values that do not read outputs", "why_tests_cant": "state graphs and histories are unbounded", "anchors": ["src/fsm.cc:FSM::realize", "src/fsm.cc:FSM::generate_state_transition", "src/fsm.cc:FSM::generate_output"]}
{"id": "C29", "title": "State encoding is injective and fits", "statement": "Distinct states get distinct codes, every code fits the state register, and the codes are 0..n-1.", "quantifier": "every FSM family whose qualified state names are distinct", "why_tests_cant": "number of states unbounded; boundary at powers of two", "anchors": ["src/fsm.cc:FSM::realize", "src/fsm.cc:FSM::get_all_child_states"]}
{"id": "C30", "title": "Modules share a name afterwards iff they shared name and hash", "statement": "Uniquification succeeds. Two hashed, non-external modules that shared a name share a name afterwards iff their structural hashes are equal; modules with different names keep different names; a new name was nobody's name before; external and unhashed modules keep their name; one module of each group keeps the name, a tracked one if there is one.", "quantifier": "every population of modules (names plus three times the modules fewer than 2^32 - 4), names, hashes, external flags, tracking and visiting order", "why_tests_cant": "populations are unbounded; name clashes with existing _unqN names are corner cases", "anchors": ["src/pass.cc:uniquify_generators", "src/context.cc:Context::change_generator_name"]}
{"id": "C31", "title": "Equal structural hash means interchangeable modules", "statement": "Modules that are given the same structural hash generate the same logic (up to renaming), so replacing one by the other is safe.", "quantifier": "every pair of modules", "why_tests_cant": "collisions are structural and not sampled by tests", "anchors": ["src/hash.cc:hash_var", "src/hash.cc:HashVisitor"]}
{"id": "C32", "title": "Printed for loops iterate as declared", "statement": "The printed loop header (bound, comparison, step) executes the body for exactly the declared sequence start, start+step, ... before end.", "quantifier": "every start, end and non-zero step where the step leads from start to end and the bounds and the value after the last fit the loop variable", "why_tests_cant": "infinitely many triples, including negative steps", "anchors": ["src/codegen.cc:SystemVerilogCodeGen::stmt_code", "src/stmt.cc:ForStmt"]}
{"id": "C33", "title": "Instances are ordered dependencies-first", "statement": "Building the instance graph rejects exactly the designs that use an object twice. The sorted list contains each instance once and after all the instances it contains; the levels list exactly the instances at each depth.", "quantifier": "every instance hierarchy and every iteration order of the hash tables; levels for hierarchies of fewer than 32 instances", "why_tests_cant": "hierarchies are unbounded", "anchors": ["src/graph.cc:GeneratorGraph::get_sorted_nodes", "src/graph.cc:GeneratorGraph::get_leveled_nodes"]}
{"id": "C34", "title": "Wiring picks the legal direction", "statement": "Wiring two ports produces an assignment whose target is the port that must be driven in that context, independent of the argument order; illegal combinations are rejected.", "quantifier": "every module hierarchy with distinct instance names and every pair of input or output ports that are not interface signals, or of such a port (or interface signal) and another signal of the module", "why_tests_cant": "all combinations of direction and hierarchy, in either order", "anchors": ["src/generator.cc:Generator::correct_wire_direction"]}
{"id": "C35", "title": "Name lookup returns what was declared", "statement": "After any sequence of variable, port and parameter declarations, renames and removals, looking a name up returns the object last successfully declared under that name, and a failed declaration changes nothing.", "quantifier": "every sequence of variable, port and enum-variable declarations, connections, renames and removals in which ports are not declared over variables, ports are removed with the port call, and connected ports are not removed", "why_tests_cant": "histories are unbounded", "anchors": ["src/generator.cc:Generator::var", "src/generator.cc:Generator::port", "src/generator.cc:Generator::rename_var"]}
{"id": "C36", "title": "Flipping a port bundle is an involution", "statement": "Flipping a bundle definition reverses every port direction and keeps every width, size, signedness, kind and the debug information; flipping twice gives the same fields; a second definition of a name is rejected without effect.", "quantifier": "every sequence of input and output field definitions", "why_tests_cant": "definitions are unbounded", "anchors": ["src/port.cc:PortBundleDefinition::add_definition", "src/port.cc:PortBundleDefinition::flip"]}
{"id": "C37", "title": "Fault localisation reports exactly the suspicious statements", "statement": "The statements reported are exactly the blocks entered in a failing run and in no passing run, each once, and the order in which runs are added does not matter.", "quantifier": "every design built from if statements, blocks and processes, and every history of adding runs, marking values wrong, computing coverage and analysing in which the coverage of a run is not extended after it was analysed", "why_tests_cant": "collections are unbounded", "anchors": ["src/fault.cc:FaultAnalyzer::compute_fault_stmts_from_coverage"]}
{"id": "C38", "title": "Simulator expression evaluation", "statement": "The built-in simulator evaluates an expression to its SystemVerilog value in the current state.", "quantifier": "every expression tree over variables and non-negative constants with operands of equal width up to 64 bits (63 for signed arithmetic), unsigned under orderings and extensions, of the operators + - * / & | ^ == orderings, logical shift right, ~ ! | ^ reductions (^ up to 32 bits), ?:, concatenation and extension; every state in which no division by zero and no shift by 64 or more occurs", "why_tests_cant": "trees and states are unbounded", "anchors": ["src/sim.cc:Simulator::eval_expr", "src/sim.cc:Simulator::get_value_"]}
{"id": "C39", "title": "Simulator array access", "statement": "Writing an element of an array variable in the simulator changes exactly that element, and reading an element returns exactly its value.", "quantifier": "every array with dimensions larger than 1, every full index, every element width up to 63 (reads) or 32 (writes) and value", "why_tests_cant": "2^w values and O(w^2) slices for each width", "anchors": ["src/sim.cc:Simulator::set_value_", "src/sim.cc:Simulator::get_value_"]}
{"id": "C40", "title": "Simulator executes a block as SystemVerilog does", "statement": "Executing a procedural block in the simulator (if, case, nested blocks, blocking and non-blocking assignments to whole variables) leaves every variable with the value SystemVerilog gives: right-hand sides of non-blocking assignments are read before any update, and the order in which the queue is walked does not matter.", "quantifier": "every block of supported statements, every state, every walk order of the queue; executions that queue at most one update per variable", "why_tests_cant": "blocks are unbounded", "anchors": ["src/sim.cc:Simulator::process_stmt", "src/sim.cc:Simulator::eval"]}
{"id": "C41", "title": "Breakpoint enable conditions are exact", "statement": "The condition attached to a statement for the debugger is true in a state iff the statement is executed in that state.", "quantifier": "every statement not below a loop, in a block without break and return whose own blocking assignments do not change the variables of the condition; case statements with distinct in-range constants, and one case besides a default on the path (else: C87); every state", "why_tests_cant": "trees are unbounded", "anchors": ["src/analysis.cc:EnableStmtVisitor"]}
{"id": "C42", "title": "Banked SRAM behaves as one memory", "statement": "A large SRAM built from smaller banks returns on every read the value last written to that address.", "quantifier": "every number of banks from 2 to 64, every address inside the memory, every history of reads, writes and partial writes, and every initial content", "why_tests_cant": "histories and addresses are unbounded", "anchors": ["src/lib.cc:SinglePortSRAM"]}
{"id": "C43", "title": "Verilator coverage lines are decoded faithfully", "statement": "Parsing a coverage line recovers exactly the key/value pairs and the count that were encoded in it.", "quantifier": "every list of key/value pairs with distinct non-empty keys, whose texts do not contain the separators, and every count below 2^32", "why_tests_cant": "strings are unbounded", "anchors": ["src/fault.cc:parse_verilator_coverage"]}
{"id": "C44", "title": "XML escaping is reversible", "statement": "Escaped text contains no raw markup characters and un-escapes to the original text; different texts have different escapes.", "quantifier": "every string", "why_tests_cant": "strings are unbounded", "anchors": ["src/fault.cc:XMLWriter::write_escape"]}
{"id": "C45", "title": "If/else text nests as built", "statement": "The emitted if/else text, parsed with SystemVerilog's rule that an else belongs to the nearest unmatched if, has the same nesting as the statement tree.", "quantifier": "every statement tree without raw text, property assertions and undefined assignments", "why_tests_cant": "nesting depth is unbounded (dangling else)", "anchors": ["src/codegen.cc:SystemVerilogCodeGen::stmt_code"]}
{"id": "C46", "title": "Removing assertions, events and async resets removes nothing else", "statement": "Stripping passes delete exactly the statements or sensitivity entries of their kind, at any depth, and keep all others in order; the stripped block computes the same values.", "quantifier": "every statement tree without such statements directly in initial, latch or function blocks; for assertions, modules without sequential blocks", "why_tests_cant": "trees are unbounded", "anchors": ["src/debug.cc:AssertionRemoval", "src/event.cc:EventRemoval", "src/formal.cc:AsyncVisitor"]}
{"id": "C47", "title": "Deferred statement removal equals immediate removal", "statement": "Removing statements through the deferred cache leaves the same statement list as removing them one at a time, independent of order and duplicates.", "quantifier": "every statement list without repeated statements and every removal sequence", "why_tests_cant": "sequences are unbounded", "anchors": ["src/generator.cc:Generator::remove_stmt", "src/generator.cc:Generator::remove_stmt_from_cached"]}
{"id": "C48", "title": "Parameter changes propagate to dependent widths and values", "statement": "After setting a parameter, every constant or variable whose value or width depends on it, directly or through other parameters, holds the new value.", "quantifier": "every history of settings, links and parametrisations of widths and dimensions that return, in which a parameter set from another is not set otherwise and a dimension or width is given a new expression only after the old one is taken away; element widths that are one parameter", "why_tests_cant": "chains and histories are unbounded", "anchors": ["src/expr.cc:Param::set_value", "src/expr.cc:Var::set_width_param"]}
{"id": "C49", "title": "Signed evaluation and complement at the full 64-bit width", "statement": "Signed constant evaluation, unary minus and ~ are defined at width 64 as they are at smaller widths.", "quantifier": "every 64-bit operand", "why_tests_cant": "undefined behaviour of the C++ shift depends on the platform and optimisation level, so a test may pass by accident", "anchors": ["src/eval.cc:invert", "src/eval.cc:two_complement"]}
{"id": "C50", "title": "Arithmetic right shift of negative constants", "statement": "Arithmetic right shift of a negative signed constant divides the represented number by 2^n rounding down.", "quantifier": "every width 1..63, every negative value, every shift amount below the width", "why_tests_cant": "the result is right for a few values only (e.g. the most negative one), which are the ones a test would pick", "anchors": ["src/eval.cc:eval_bin_op"]}
{"id": "C51", "title": "Reduction operators above 32 bits", "statement": "&x is 1 iff all bits are set and ^x is the parity of all bits, also for operands wider than 32 bits.", "quantifier": "every width 33..64 and every value", "why_tests_cant": "needs values with information in the upper half", "anchors": ["src/eval.cc:eval_unary_op"]}
{"id": "C52", "title": "If-to-case conversion when a chain repeats a test", "statement": "If-to-case conversion also preserves behaviour when an else-if chain compares the same value twice (the later branch is dead code).", "quantifier": "every chain with a repeated constant and every state", "why_tests_cant": "only chains with a duplicated constant show it", "anchors": ["src/optimize.cc:TransformIfCase", "src/stmt.cc:SwitchStmt::add_switch_case"]}
{"id": "C53", "title": "Removing an empty case arm next to a default", "statement": "Removing empty blocks preserves behaviour also when a switch with a default has an empty arm.", "quantifier": "every such switch and every state", "why_tests_cant": "only a selector value that hits the empty arm shows it", "anchors": ["src/optimize.cc:RemoveEmptyBlockVisitor"]}
{"id": "C54", "title": "Removing empty blocks never crashes", "statement": "The empty-block pass handles an if statement whose two branches are empty.", "quantifier": "every predicate and context", "why_tests_cant": "undefined behaviour: a null dereference that a build may or may not trap", "anchors": ["src/optimize.cc:RemoveEmptyBlockVisitor"]}
{"id": "C55", "title": "Removing an empty then branch negates the predicate", "statement": "When the then branch is dropped the new predicate is the logical negation of the old one, for predicates of any width.", "quantifier": "every predicate width and state", "why_tests_cant": "one-bit predicates, which tests use, behave", "anchors": ["src/optimize.cc:RemoveEmptyBlockVisitor"]}
{"id": "C56", "title": "Merging ifs keeps later else branches", "statement": "Merging if statements preserves behaviour when a later if has an else branch.", "quantifier": "every such block and every state", "why_tests_cant": "only states that take the first if show it", "anchors": ["src/optimize.cc:MergeIfVisitor"]}
{"id": "C57", "title": "Merging ifs whose bodies update the tested variable", "statement": "Merging if statements preserves behaviour when a branch assigns the tested variable.", "quantifier": "every such block and every state", "why_tests_cant": "needs a chained update", "anchors": ["src/optimize.cc:MergeIfVisitor"]}
{"id": "C58", "title": "Merging ifs separated by other statements", "statement": "Merging if statements preserves behaviour when other statements stand between them.", "quantifier": "every such block and every state", "why_tests_cant": "needs an order-dependent statement in between", "anchors": ["src/optimize.cc:MergeIfVisitor"]}
{"id": "C59", "title": "Merging wires that permute bits", "statement": "Merging per-bit assignments preserves connectivity also when bit i of the target is not driven by bit i of the source.", "quantifier": "every permutation of bits", "why_tests_cant": "only a permuted connection shows it", "anchors": ["src/optimize.cc:MergeWireAssignmentsVisitor"]}
{"id": "C60", "title": "Merging wires inside blocking code", "statement": "Merging per-bit assignments inside a combinational block preserves the block's behaviour.", "quantifier": "every block of blocking assignments and every state", "why_tests_cant": "needs a reader between the assignments and the end of the block", "anchors": ["src/optimize.cc:MergeWireAssignmentsVisitor"]}
{"id": "C61", "title": "Constants print as literals with their value", "statement": "The text of a constant is a sized hexadecimal literal of the constant's width that denotes the constant's bit pattern.", "quantifier": "every constant of any width except unsigned 64-bit words above 2^63-1 and the most negative 64-bit one", "why_tests_cant": "2^64 values times widths and two sign conventions", "anchors": ["src/expr.cc:Const::to_string"]}
{"id": "C62", "title": "64-bit constants print as literals with their value", "statement": "The text of every legal 64-bit constant is a literal denoting it.", "quantifier": "every 64-bit constant", "why_tests_cant": "needs values with the top bit set", "anchors": ["src/expr.cc:Const::to_string"]}
{"id": "C63", "title": "String constants", "statement": "A constant can be set to any string whose characters fit its width (at most eight characters).", "quantifier": "every string of at most eight characters", "why_tests_cant": "tests use the integer setter", "anchors": ["src/expr.cc:Const::set_value", "src/expr.cc:convert_string_to_int"]}
{"id": "C64", "title": "Right-nested operators print with the right meaning", "statement": "An expression whose right operand is an application of the same non-associative operator prints as text with the same value.", "quantifier": "every such expression", "why_tests_cant": "needs a right-nested subtraction, division, shift, power or comparison", "anchors": ["src/expr.cc:expr_to_string"]}
{"id": "C65", "title": "A negated difference prints with the right meaning", "statement": "The negation of a subtraction prints as text with the same value.", "quantifier": "every such expression", "why_tests_cant": "needs the two tags to meet", "anchors": ["src/expr.cc:expr_to_string", "src/expr.cc:Var::operator-"]}
{"id": "C66", "title": "Repeated prefix operators print as separate tokens", "statement": "Applying a prefix operator to an application of the same prefix operator prints two operator tokens.", "quantifier": "every prefix operator", "why_tests_cant": "a lexical accident of specific operators", "anchors": ["src/expr.cc:expr_to_string", "src/util.cc:ExprOpStr"]}
{"id": "C67", "title": "Ranges of multi-dimensional arrays", "statement": "A range of the outer dimension of a multi-dimensional array has as many bits as its advertised width.", "quantifier": "every array shape and range", "why_tests_cant": "one-dimensional arrays, which tests use, behave", "anchors": ["src/expr.cc:VarSlice::VarSlice"]}
{"id": "C68", "title": "Struct bit offsets match the emitted typedef", "statement": "The bit range the generator assigns to a packed-struct member is the one SystemVerilog gives that member in the typedef the generator emits.", "quantifier": "every packed struct with at least two members", "why_tests_cant": "tests compare the offset and the text separately", "anchors": ["src/expr.cc:PackedSlice::set_up", "src/analysis.cc:extract_struct_info"]}
{"id": "C69", "title": "A member of a plain vector is rejected", "statement": "Accessing a member of a struct field that is not itself a struct is refused.", "quantifier": "every struct and access path", "why_tests_cant": "tests access only existing members", "anchors": ["src/expr.cc:PackedSlice::slice_member"]}
{"id": "C70", "title": "Struct members are declared in legal SystemVerilog", "statement": "Each vector member of an emitted typedef is a legal SystemVerilog declaration.", "quantifier": "every member name, width and signedness", "why_tests_cant": "gold files contain no signed members", "anchors": ["src/analysis.cc:extract_struct_info"]}
{"id": "C71", "title": "Redefining a struct requires an identical definition", "statement": "A second packed struct under an existing name is accepted only if it has the same members.", "quantifier": "every pair of struct definitions", "why_tests_cant": "needs nested structs with renamed members", "anchors": ["src/expr.cc:PackedStruct::same", "src/analysis.cc:PortPackedVisitor::process_struct_"]}
{"id": "C72", "title": "Line wrapping keeps the words and fits the lines", "statement": "Wrapping a text keeps all words in order; when every word fits the line width, every line does, and no line could have taken the next line's first word.", "quantifier": "every list of words and line width below 2^32", "why_tests_cant": "all word length combinations matter", "anchors": ["src/util.cc:line_wrap"]}
{"id": "C73", "title": "Line wrapping after an over-long word", "statement": "A word longer than the line width does not change how the following words are wrapped.", "quantifier": "every text containing an over-long word", "why_tests_cant": "needs an over-long word followed by others", "anchors": ["src/util.cc:line_wrap"]}
{"id": "C74", "title": "A comment is printed on one line", "statement": "A comment that does not start with a line break is printed without any line break, and unchanged if it had none.", "quantifier": "every comment text", "why_tests_cant": "all positions of line breaks matter", "anchors": ["src/util.cc:strip_newline"]}
{"id": "C75", "title": "Stripping line breaks from comments removes nothing else", "statement": "Printing a comment removes all its line breaks and keeps every other character.", "quantifier": "every comment text", "why_tests_cant": "the defect depends on the position of the line break", "anchors": ["src/util.cc:strip_newline", "src/codegen.cc"]}
{"id": "C76", "title": "Simulator orders signed operands", "statement": "The simulator evaluates <, <=, >, >= on signed operands as SystemVerilog does.", "quantifier": "every signed width and value", "why_tests_cant": "The comparison runs with the width of the 1-bit result, which happens to be right for many values.", "anchors": ["src/sim.cc:Simulator::eval_expr"]}
{"id": "C77", "title": "Simulator gives unary minus and and-reduction a value", "statement": "The simulator evaluates -x and &x to their SystemVerilog value whenever x has a value.", "quantifier": "every operand", "why_tests_cant": "Needs every operand; the simulator silently yields no value.", "anchors": ["src/sim.cc:Simulator::eval_expr", "src/expr.cc:is_unary_op"]}
{"id": "C78", "title": "Simulator sign-extends", "statement": "Widening a signed value in the simulator repeats its sign bit.", "quantifier": "every signed value, source and target width", "why_tests_cant": "Positive values, the usual test, are right.", "anchors": ["src/sim.cc:Simulator::get_value_"]}
{"id": "C79", "title": "Simulator bit access", "statement": "Reading x[i] or x[h:l] of a scalar in the simulator returns these bits, and writing x[i] leaves the other bits alone.", "quantifier": "every width, index and value", "why_tests_cant": "Bit 0 happens to be right.", "anchors": ["src/sim.cc:Simulator::get_value_", "src/sim.cc:Simulator::set_value_"]}
{"id": "C80", "title": "Simulator: the last non-blocking assignment wins", "statement": "When two non-blocking assignments to one variable execute in one activation, the variable gets the later value.", "quantifier": "every pair of assignments", "why_tests_cant": "Ordering of an activation's queue is not visible with one assignment per variable.", "anchors": ["src/sim.cc:Simulator::process_stmt"]}
{"id": "C81", "title": "Simulator compares with negative constants", "statement": "x == c holds in the simulator when x holds the bit pattern of the negative constant c.", "quantifier": "every width below 64 and negative constant", "why_tests_cant": "Needs all widths and constants.", "anchors": ["src/sim.cc:Simulator::get_value_", "src/sim.cc:Simulator::eval_expr"]}
{"id": "C82", "title": "Simulator case selection for wide selectors", "statement": "A case item is selected in the simulator exactly if the selector equals its constant, for every selector width.", "quantifier": "every selector width up to 64 and constant", "why_tests_cant": "Right up to 32 bits, which tests use.", "anchors": ["src/sim.cc:Simulator::process_stmt"]}
{"id": "C83", "title": "Registers with a reset are driven in normal operation", "statement": "If the reset check accepts a clocked process, every register that its reset branch assigns is also assigned in the other branch; a process it rejects has a register that only the reset branch assigns.", "quantifier": "every process consisting of a reset conditional, every pair of branches", "why_tests_cant": "must hold for every pair of statement trees", "anchors": ["src/analysis.cc:LatchVisitor"]}
{"id": "C84", "title": "A passed latch check covers every bit", "statement": "If the latch check accepts a block, every bit of every variable the block assigns is assigned on every path.", "quantifier": "every combinational block", "why_tests_cant": "must hold for every block and state", "anchors": ["src/analysis.cc:LatchVisitor"]}
{"id": "C85", "title": "A passed latch check covers loops", "statement": "If the latch check accepts a block with loops (which may run zero times or be left by break), every variable is assigned on every path.", "quantifier": "every combinational block with loops", "why_tests_cant": "must hold for every block and state", "anchors": ["src/analysis.cc:check_stmt_condition"]}
{"id": "C86", "title": "The case coverage check is defined for every selector", "statement": "Checking a case statement without a default gives a verdict for selectors of any width.", "quantifier": "every selector width", "why_tests_cant": "must hold for every width", "anchors": ["src/analysis.cc:check_stmt_condition"]}
{"id": "C87", "title": "Enable condition of a default branch", "statement": "The debugger condition of a statement in the default branch of a case statement is true iff the default branch is taken, whatever the number of cases.", "quantifier": "every case statement with a default branch", "why_tests_cant": "must hold for every number of cases and every state", "anchors": ["src/analysis.cc:EnableStmtVisitor"]}
{"id": "C88", "title": "Multiple drivers from loops are detected", "statement": "If the multiple-driver check accepts a module then no variable is assigned from two top-level statements, also when one of the assignments is in a loop.", "quantifier": "every module", "why_tests_cant": "must hold for every module", "anchors": ["src/analysis.cc:MultipleDriverVisitor"]}
{"id": "C89", "title": "The multiple-driver verdict is a function of the design", "statement": "Whether the multiple-driver check accepts a design does not depend on the iteration order of its hash sets.", "quantifier": "every module and every two orders", "why_tests_cant": "the order of a hash set is not under the control of a test", "anchors": ["src/analysis.cc:MultipleDriverVisitor"]}
{"id": "C90", "title": "Distinct states get distinct codes even across nested machines", "statement": "Two different states reachable in a realised machine never share a code.", "quantifier": "every family of nested state machines, whatever the names of machines and states", "why_tests_cant": "the clash depends on how machine and state names concatenate", "anchors": ["src/fsm.cc:FSM::realize", "src/fsm.cc:FSM::get_all_child_states"]}
{"id": "C91", "title": "A state that declares an output as kept leaves it unchanged", "statement": "While a Moore machine is in a state that declares an output as keeping its value, the output logic does not change it.", "quantifier": "every state machine, number of states and output declaration", "why_tests_cant": "depends on the number of states and on which states have output cases", "anchors": ["src/fsm.cc:FSM::generate_output"]}
{"id": "C92", "title": "Mealy outputs are those of the transition taken", "statement": "In a Mealy machine the outputs in a cycle are those declared for the state entered by the transition that is taken, conditional or not.", "quantifier": "every state machine, state and input", "why_tests_cant": "state graphs and inputs are unbounded", "anchors": ["src/fsm.cc:FSM::generate_state_transition", "src/fsm.cc:FSM::get_func_call_stmt"]}
{"id": "C93", "title": "Every declared machine is generated or rejected", "statement": "Realising a machine never crashes, and machines with final states (no outgoing transition) are generated.", "quantifier": "every declared state machine", "why_tests_cant": "state graphs are unbounded", "anchors": ["src/fsm.cc:FSM::generate_state_transition"]}
{"id": "C94", "title": "A port cannot be declared under the name of a variable", "statement": "Declaring a port whose name a variable of the module already has is an error, or makes the name stand for the port.", "quantifier": "every module state and port declaration", "why_tests_cant": "depends on the order of declarations made anywhere in the program", "anchors": ["src/generator.cc:Generator::port", "src/generator.cc:Generator::add_port_name", "src/generator.cc:Generator::get_port"]}
{"id": "C95", "title": "A removal that fails changes nothing", "statement": "When removing a port is rejected because it is still connected, the port is still a port of the module.", "quantifier": "every module state", "why_tests_cant": "crash consistency over all states", "anchors": ["src/generator.cc:Generator::remove_port", "src/generator.cc:Generator::remove_var"]}
{"id": "C96", "title": "Declaring a variable again gives the same variable", "statement": "Repeating a declaration returns the existing variable, and a declaration with another shape is rejected.", "quantifier": "every width, array shape and sign", "why_tests_cant": "array shapes are unbounded", "anchors": ["src/generator.cc:Generator::var"]}
{"id": "C97", "title": "The port table follows the variable table", "statement": "After a port is removed as a variable or renamed through the C++ call, looking it up by name works as for any other object.", "quantifier": "every module state", "why_tests_cant": "depends on the history of removals and renames", "anchors": ["src/generator.cc:Generator::remove_var", "src/generator.cc:Generator::rename_var", "src/generator.cc:Generator::get_port"]}
{"id": "C98", "title": "Renaming a variable never loses a variable", "statement": "After renaming through the C++ call every variable of the module can still be found under some name.", "quantifier": "every module state and pair of names", "why_tests_cant": "depends on all names in the module", "anchors": ["src/generator.cc:Generator::rename_var"]}
{"id": "C99", "title": "Renaming a variable leaves other names alone", "statement": "Renaming one variable does not change what any other name stands for, also in modules with interface instances.", "quantifier": "every module state and pair of names", "why_tests_cant": "depends on all names in the module", "anchors": ["src/generator.cc:Generator::reindex_vars", "python/kratos_expr.cc:rename"]}
{"id": "C100", "title": "Declaring a parameter twice is rejected", "statement": "A second parameter with the same name is rejected; otherwise the returned parameter is the one registered.", "quantifier": "every module state and name", "why_tests_cant": "depends on the history of declarations", "anchors": ["src/generator.cc:Generator::parameter"]}
{"id": "C101", "title": "Inlining a child keeps every variable", "statement": "Moving the contents of a child module into another module keeps every variable of both: names of the target stay, and every child variable is found under its own or its prefixed name.", "quantifier": "every pair of modules and non-empty prefix such that no prefixed name of the child is in use in either module", "why_tests_cant": "numbers of variables unbounded", "anchors": ["src/generator.cc:Generator::transfer_content"]}
{"id": "C102", "title": "Inlining avoids names already used in the target", "statement": "Inlining never loses a child's variable, also when the prefixed name is already used in the target module.", "quantifier": "every pair of modules and prefix", "why_tests_cant": "depends on all names of both modules", "anchors": ["src/generator.cc:Generator::transfer_content", "src/optimize.cc:InlineGeneratorVisitor"]}
{"id": "C103", "title": "An external module's name is not given to another module", "statement": "After uniquification no module of the design has the name of an external module with different contents.", "quantifier": "every design", "why_tests_cant": "depends on names chosen in separate places", "anchors": ["src/pass.cc:uniquify_generators"]}
{"id": "C104", "title": "Copies of a module hash the same", "statement": "A module built again with the same names, widths and statements, its variables declared in any order, gets the same structural hash, at every depth of the hierarchy.", "quantifier": "every module hierarchy and every order of declarations", "why_tests_cant": "modules and orders are unbounded", "anchors": ["src/hash.cc:HashVisitor", "src/hash.cc:hash_generator"]}
{"id": "C105", "title": "Hashing is defined for every nesting depth", "statement": "Computing the structural hash has no undefined behaviour, however deep the statements and instances are nested.", "quantifier": "every statement tree", "why_tests_cant": "depth is unbounded", "anchors": ["src/hash.cc:HashVisitor", "src/ir.cc:IRVisitor::visit_root"]}
{"id": "C106", "title": "Levels of an instance hierarchy of any size", "statement": "Computing the levels of the hierarchy, as every parallel pass does, has no undefined behaviour.", "quantifier": "every instance hierarchy", "why_tests_cant": "hierarchies are unbounded and the invalid read may go unnoticed", "anchors": ["src/graph.cc:GeneratorGraph::get_leveled_nodes"]}
{"id": "C107", "title": "Undecided assignments in sequential code become non-blocking", "statement": "Every undecided assignment in a sequential block becomes non-blocking, whether or not the block's assignment check is switched off.", "quantifier": "every sequential block", "why_tests_cant": "trees are unbounded", "anchors": ["src/transform.cc:AssignmentTypeBlockVisitor"]}
{"id": "C108", "title": "Non-blocking assignments in initial and latch code are reported", "statement": "An explicit non-blocking assignment in an initial or latch block is reported as a conflict.", "quantifier": "every module statement tree", "why_tests_cant": "trees are unbounded", "anchors": ["src/transform.cc:AssignmentTypeBlockVisitor"]}
{"id": "C109", "title": "Every module can be sorted", "statement": "Sorting the top-level statements succeeds for every module, including those with initial blocks, functions, comments and assertions.", "quantifier": "every list of statements", "why_tests_cant": "lists are unbounded", "anchors": ["src/transform.cc:sort_stmts"]}
{"id": "C110", "title": "Assertions can be removed from sequential code", "statement": "Removing assertions is defined for modules with clocked blocks.", "quantifier": "every module", "why_tests_cant": "the invalid cast may go unnoticed in any one run", "anchors": ["src/debug.cc:AssertionRemoval"]}
{"id": "C111", "title": "Stripping reaches every block", "statement": "Event and assertion removal also removes statements written directly in initial, latch and function blocks.", "quantifier": "every statement tree", "why_tests_cant": "trees are unbounded", "anchors": ["src/event.cc:EventRemoval", "src/debug.cc:AssertionRemoval"]}
{"id": "C112", "title": "Deferred removal with repeated statements", "statement": "Deferred removal equals immediate removal when a statement has been added more than once.", "quantifier": "every statement list and removal sequence", "why_tests_cant": "sequences are unbounded", "anchors": ["src/generator.cc:Generator::clear_remove_stmt_cache"]}
{"id": "C113", "title": "Deferred removal followed by adding the statement again", "statement": "A statement added again after a deferred removal is in the final list.", "quantifier": "every statement list", "why_tests_cant": "sequences are unbounded", "anchors": ["src/generator.cc:Generator::clear_remove_stmt_cache"]}
{"id": "C114", "title": "Wiring an inout port does not depend on argument order", "statement": "Wiring an inout port and another signal gives the same statement in both argument orders.", "quantifier": "every pair of signals and every hierarchy", "why_tests_cant": "hierarchies are unbounded", "anchors": ["src/generator.cc:Generator::correct_wire_direction", "src/generator.cc:correct_port_direction"]}
{"id": "C115", "title": "Wiring never drives an input of the module itself", "statement": "Wiring a module input to a signal of an interface instance drives the interface signal, in both argument orders.", "quantifier": "every pair of ports of a module", "why_tests_cant": "hierarchies are unbounded", "anchors": ["src/generator.cc:correct_port_direction"]}
{"id": "C116", "title": "Wiring rejects signals that cannot be reached", "statement": "Wiring in a module rejects signals that belong neither to the module nor to one of its instances.", "quantifier": "every hierarchy", "why_tests_cant": "hierarchies are unbounded", "anchors": ["src/generator.cc:Generator::has_child_generator", "src/generator.cc:Generator::correct_wire_direction"]}
{"id": "C117", "title": "Flipping a port bundle keeps its name", "statement": "A flipped bundle definition has the name of the original.", "quantifier": "every bundle definition", "why_tests_cant": "definitions are unbounded", "anchors": ["src/port.cc:PortBundleDefinition::flip"]}
{"id": "C118", "title": "A rejected bundle field is not defined", "statement": "A field definition that is rejected leaves the bundle unchanged.", "quantifier": "every sequence of field definitions", "why_tests_cant": "definitions are unbounded", "anchors": ["src/port.cc:PortBundleDefinition::add_definition"]}
{"id": "C119", "title": "Connecting two port bundles wires each field once", "statement": "A successful connection of two bundles adds exactly one legally directed wire per field, between the two ports of that field, and happens only when both have the same fields.", "quantifier": "every two bundles of input and output fields and every hierarchy", "why_tests_cant": "bundles and hierarchies are unbounded", "anchors": ["src/port.cc:PortBundleRef::assign"]}
{"id": "C120", "title": "A rejected bundle connection adds no wires", "statement": "If connecting two bundles is rejected, no wire has been added.", "quantifier": "every two bundles", "why_tests_cant": "bundles are unbounded", "anchors": ["src/port.cc:PortBundleRef::assign"]}
{"id": "C121", "title": "Coverage counts case branches and loop bodies", "statement": "The coverage computed from simulation states contains every block entered, including the branches of case statements and the bodies of loops.", "quantifier": "every design and simulation state", "why_tests_cant": "designs and states are unbounded", "anchors": ["src/fault.cc:compute_hit_stmts", "src/fault.cc:FaultAnalyzer::compute_coverage"]}
{"id": "C122", "title": "Coverage added after an analysis is used", "statement": "Coverage added to a run is taken into account by the next analysis.", "quantifier": "every history of operations", "why_tests_cant": "histories are unbounded", "anchors": ["src/fault.cc:compute_hit_stmts", "src/fault.cc:FaultAnalyzer::compute_coverage", "src/fault.cc:FaultAnalyzer::compute_fault_stmts_from_coverage"]}
{"id": "C123", "title": "Coverage rates are at most one", "statement": "The covered lines and branches of the report are among the lines and branches counted, so both rates are at most one.", "quantifier": "every design and runs whose covered blocks all carry debug information", "why_tests_cant": "designs are unbounded", "anchors": ["src/fault.cc:FaultAnalyzer::output_coverage_xml"]}
{"id": "C124", "title": "The branch rate is at most one in general", "statement": "The branch rate of the report is at most one.", "quantifier": "every design and runs, with or without debug information", "why_tests_cant": "designs are unbounded", "anchors": ["src/fault.cc:FaultAnalyzer::output_coverage_xml"]}
{"id": "C125", "title": "The XML writer produces the document described", "statement": "A sequence of open, attribute, content and close calls produces well-formed text of exactly the document described, up to blank text between elements.", "quantifier": "every sequence of calls in which attributes follow an opening or another attribute and nothing is closed that is not open", "why_tests_cant": "call histories are unbounded", "anchors": ["src/fault.cc:XMLWriter"]}
{"id": "C126", "title": "The coverage report is well-formed", "statement": "The coverage report is one well-formed element carrying the statistics, the root path and every class with its lines, whatever characters the names contain.", "quantifier": "every set of statistics, classes and lines", "why_tests_cant": "names and lists are unbounded", "anchors": ["src/fault.cc:XMLWriter", "src/fault.cc:FaultAnalyzer::output_coverage_xml"]}
{"id": "C127", "title": "Every source line is listed once in the coverage report", "statement": "A source line is listed exactly if a counted statement comes from it, and only once.", "quantifier": "every list of statements with debug information", "why_tests_cant": "lists are unbounded", "anchors": ["src/fault.cc:FaultAnalyzer::output_coverage_xml"]}
{"id": "C128", "title": "A source line is reported with the hits of all its statements", "statement": "A source line that was executed is reported with hits, no matter in which order statements are stored.", "quantifier": "every list of statements, several of which may come from the same source line", "why_tests_cant": "lists and hash orders are unbounded", "anchors": ["src/fault.cc:FaultAnalyzer::output_coverage_xml"]}
{"id": "C129", "title": "Counts of any size are kept", "statement": "A line executed at least once is reported as executed, whatever its count.", "quantifier": "every count that fits the file format", "why_tests_cant": "counts are unbounded", "anchors": ["src/fault.cc:parse_verilator_coverage"]}
{"id": "C130", "title": "Values of coverage data may contain quotes", "statement": "Every key/value pair is recovered, also when a value contains a quote.", "quantifier": "every list of key/value pairs", "why_tests_cant": "strings are unbounded", "anchors": ["src/fault.cc:parse_verilator_coverage"]}
{"id": "C131", "title": "Coverage hits are mapped to the right blocks", "statement": "A block is reported as hit exactly if the coverage file has a non-zero count for its line of a file with the base name of the file it was written to.", "quantifier": "every list of hits, and blocks that differ in line or base name of the file", "why_tests_cant": "designs and files are unbounded", "anchors": ["src/fault.cc:reverse_map_stmt"]}
{"id": "C132", "title": "Coverage hits of other directories do not count", "statement": "A hit in a file of another directory is not attributed to a block.", "quantifier": "every pair of paths", "why_tests_cant": "paths are unbounded", "anchors": ["src/fault.cc:reverse_map_stmt"]}
{"id": "C133", "title": "Block coverage reports are read back", "statement": "Reading a block coverage report yields file, line and count of every row of a branch, and nothing else.", "quantifier": "every report with any files and rows, columns separated by two or more blanks", "why_tests_cant": "reports are unbounded", "anchors": ["src/fault.cc:parse_icc_coverage", "src/fault.cc:get_icc_tokens"]}
{"id": "C134", "title": "All columns of a row are recovered exactly", "statement": "Splitting a row gives exactly its columns.", "quantifier": "every row", "why_tests_cant": "rows are unbounded", "anchors": ["src/fault.cc:get_icc_tokens"]}
{"id": "C135", "title": "Root path and file name give the source path", "statement": "In the coverage report the root path followed by the file name is the path of the source file.", "quantifier": "every set of absolute paths", "why_tests_cant": "paths are unbounded", "anchors": ["src/fault.cc:longestPath", "src/fault.cc:get_filename_after_root"]}
{"id": "C136", "title": "The root path is a directory of all files", "statement": "The root path of the coverage report is a directory that contains every file.", "quantifier": "every set of absolute paths", "why_tests_cant": "paths are unbounded", "anchors": ["src/fault.cc:longestPath"]}
{"id": "C137", "title": "Names without directory are reported as they are", "statement": "A source file given without a directory is reported under its name.", "quantifier": "every set of file names", "why_tests_cant": "names are unbounded", "anchors": ["src/fault.cc:longestPath", "src/fault.cc:get_filename_after_root"]}
{"id": "C138", "title": "Loops counting down stop at their bound", "statement": "A loop with a negative step runs its body for exactly the declared values.", "quantifier": "every start, end and negative step, with bounds from zero on", "why_tests_cant": "infinitely many triples", "anchors": ["src/codegen.cc:SystemVerilogCodeGen::stmt_code", "src/stmt.cc:ForStmt"]}
{"id": "C139", "title": "Loops whose step leads away from the end run nothing", "statement": "A loop whose step leads away from its end does not run its body.", "quantifier": "every start, end and step", "why_tests_cant": "infinitely many triples", "anchors": ["src/codegen.cc:SystemVerilogCodeGen::stmt_code", "src/stmt.cc:ForStmt"]}
{"id": "C140", "title": "Accepted loop indices fit", "statement": "An expression over a loop variable that is accepted for a narrower width has a value that fits that width in every iteration.", "quantifier": "every expression with one loop variable that rises or falls with it, every range and every width up to 64", "why_tests_cant": "ranges and widths are unbounded", "anchors": ["src/expr.cc:IterVar::safe_to_resize"]}
{"id": "C141", "title": "Accepted indices over several loops fit", "statement": "An expression over loop variables that is accepted for a narrower width has a value that fits that width in every iteration.", "quantifier": "every expression with any number of loop variables", "why_tests_cant": "ranges and widths are unbounded", "anchors": ["src/expr.cc:IterVar::safe_to_resize"]}
{"id": "C142", "title": "Inputs fully driven by parts are left alone", "statement": "An input whose bits are all driven by assignments to parts of it is not changed.", "quantifier": "every width and every set of slices that covers it", "why_tests_cant": "2^w sets of driven bits", "anchors": ["src/transform.cc:ZeroGeneratorInputVisitor", "src/analysis.cc:connected"]}
{"id": "C143", "title": "Inputs of any width can be zeroed", "statement": "Every unconnected input is assigned zero.", "quantifier": "every width", "why_tests_cant": "widths are unbounded", "anchors": ["src/transform.cc:ZeroGeneratorInputVisitor", "src/analysis.cc:connected"]}
{"id": "C144", "title": "Arrays of several dimensions are zeroed exactly", "statement": "Zeroing an input array with several dimensions assigns zero to exactly the bits that nothing drives.", "quantifier": "every array and every set of driven elements", "why_tests_cant": "dimensions are unbounded", "anchors": ["src/transform.cc:ZeroGeneratorInputVisitor", "src/analysis.cc:connected"]}
{"id": "C145", "title": "Zeros are assigned where the input is driven", "statement": "The zeros for an input are assigned in the module that instantiates the child, where its inputs are driven.", "quantifier": "every instance and input", "why_tests_cant": "designs are unbounded", "anchors": ["src/transform.cc:ZeroGeneratorInputVisitor", "src/analysis.cc:connected"]}
{"id": "C146", "title": "Banked SRAM shows on a write what one SRAM shows", "statement": "On every edge with the memory enabled, the output of a banked SRAM is that of one SRAM of the same size.", "quantifier": "every history of reads and writes", "why_tests_cant": "histories are unbounded", "anchors": ["src/lib.cc:SinglePortSRAM"]}
{"id": "C147", "title": "Every multiple of a bank can be built", "statement": "An SRAM can be built for every capacity that is a multiple of the capacity of the bank.", "quantifier": "every number of banks from one on", "why_tests_cant": "numbers of banks are unbounded", "anchors": ["src/lib.cc:SinglePortSRAM"]}
{"id": "C148", "title": "Processes partly under an enable are frozen as a whole", "statement": "After clock-enable insertion an edge with the enable low leaves every register unchanged, also in a process of which some statements stand under the enable already.", "quantifier": "every process that begins with an if on a clock enable", "why_tests_cant": "processes are unbounded", "anchors": ["src/optimize.cc:InsertClockIRVisitor", "src/optimize.cc:InsertSyncReset"]}
{"id": "C149", "title": "The reset works whatever the enable, also beside other statements", "statement": "In a process in which a reset if stands beside other statements, the reset works with the enable low.", "quantifier": "every process with a reset if and other statements", "why_tests_cant": "processes are unbounded", "anchors": ["src/optimize.cc:InsertClockIRVisitor", "src/optimize.cc:InsertSyncReset"]}
{"id": "C150", "title": "Registers without synchronous reset get one when others already have one", "statement": "After synchronous-reset insertion every process with an asynchronous reset has a synchronous one too.", "quantifier": "every process", "why_tests_cant": "processes are unbounded", "anchors": ["src/optimize.cc:InsertClockIRVisitor", "src/optimize.cc:InsertSyncReset"]}
{"id": "C151", "title": "A reset above the enable works whatever pass ran first", "statement": "A synchronous reset asked to stand above the clock enable resets with the enable low, whether the enable or the reset was inserted first.", "quantifier": "both orders of the passes and every process", "why_tests_cant": "processes are unbounded", "anchors": ["src/optimize.cc:InsertClockIRVisitor", "src/optimize.cc:InsertSyncReset"]}
{"id": "C152", "title": "Modules that read their own outputs can be pipelined", "statement": "Asking for n pipeline stages on an output delays it by n cycles, also when the module itself reads the output.", "quantifier": "every module and n >= 1", "why_tests_cant": "modules and n are unbounded", "anchors": ["src/optimize.cc:PipelineInsertionVisitor", "src/expr.cc:Var::move_src_to"]}
{"id": "C153", "title": "Element widths given by an expression follow its value", "statement": "After setting a parameter, the element width of a variable whose width is an expression over it is the value of the expression.", "quantifier": "every expression over parameters", "why_tests_cant": "expressions are unbounded", "anchors": ["src/expr.cc:Param::set_value", "src/expr.cc:Var::set_width_param", "src/expr.cc:Var::set_size_param"]}
{"id": "C154", "title": "A width parameter taken away has no effect any more", "statement": "After the width parameter of a variable is taken away, setting the parameter does not change the variable.", "quantifier": "every variable and history", "why_tests_cant": "histories are unbounded", "anchors": ["src/expr.cc:Param::set_value", "src/expr.cc:Var::set_width_param", "src/expr.cc:Var::set_size_param"]}
{"id": "C155", "title": "A dimension follows the parameter it was given last", "statement": "A dimension given to another parameter follows that one only.", "quantifier": "every variable and history", "why_tests_cant": "histories are unbounded", "anchors": ["src/expr.cc:Param::set_value", "src/expr.cc:Var::set_width_param", "src/expr.cc:Var::set_size_param"]}
{"id": "C156", "title": "A parameter follows the one it was set from last", "statement": "A parameter set from another one follows that one only.", "quantifier": "every history", "why_tests_cant": "histories are unbounded", "anchors": ["src/expr.cc:Param::set_value", "src/expr.cc:Var::set_width_param", "src/expr.cc:Var::set_size_param"]}
{"id": "C157", "title": "A parameter set to a number is printed as that number", "statement": "Setting a parameter to a number ends its link to the parameter it was set from, so that the number is printed and used.", "quantifier": "every history", "why_tests_cant": "histories are unbounded", "anchors": ["src/expr.cc:Param::set_value", "src/expr.cc:Var::set_width_param", "src/expr.cc:Var::set_size_param"]}
{"id": "C158", "title": "Parameters set from each other are reported", "statement": "Setting parameters from each other in a cycle ends with an exception.", "quantifier": "every cycle of parameters", "why_tests_cant": "cycles are unbounded", "anchors": ["src/expr.cc:Param::set_value", "src/expr.cc:Var::set_width_param", "src/expr.cc:Var::set_size_param"]}
{"id": "C159", "title": "Dead code elimination keeps the behaviour of what is left", "statement": "After dead code elimination every port of the top level and every variable and port that is left has, in every simulation, the value it has without the pass, and nothing left refers to something removed.", "quantifier": "every hierarchy whose processes use their own signals and the ports of their instances, with driven outputs, in which no signal of an event list is removed; every schedule of every stimulus and all initial values", "why_tests_cant": "schedules, hierarchies and statement nesting are unbounded", "anchors": ["src/optimize.cc:dead_code_elimination", "src/optimize.cc:DeadCodeVarElimination", "src/optimize.cc:DeadCodeInstanceElimination"]}
{"id": "C160", "title": "Dead code elimination removes everything dead", "statement": "After dead code elimination every variable that is left in an instance that is left is read by a statement that is left, and every instance left has a port.", "quantifier": "every such hierarchy without slices", "why_tests_cant": "chains of dead variables and hierarchies are unbounded", "anchors": ["src/optimize.cc:dead_code_elimination", "src/optimize.cc:DeadCodeVarElimination", "src/optimize.cc:DeadCodeInstanceElimination"]}
{"id": "C161", "title": "Dead code elimination keeps clocks of instances", "statement": "A clock or reset connected to an instance stays connected.", "quantifier": "every hierarchy with instances that have clocked processes", "why_tests_cant": "any design with a clocked instance", "anchors": ["src/optimize.cc:dead_code_elimination", "src/optimize.cc:DeadCodeVarElimination", "src/optimize.cc:DeadCodeInstanceElimination"]}
{"id": "C162", "title": "Dead code elimination keeps external modules", "statement": "An instance of a module that is given from outside keeps its connections.", "quantifier": "every hierarchy with external instances", "why_tests_cant": "any design with an external instance", "anchors": ["src/optimize.cc:dead_code_elimination", "src/optimize.cc:DeadCodeVarElimination", "src/optimize.cc:DeadCodeInstanceElimination"]}
{"id": "C163", "title": "Dead code elimination removes variables dead code reads through slices", "statement": "A variable that only removed statements read is removed, also if they read it through a slice.", "quantifier": "every design with slices", "why_tests_cant": "expressions are unbounded", "anchors": ["src/optimize.cc:dead_code_elimination", "src/optimize.cc:DeadCodeVarElimination", "src/optimize.cc:DeadCodeInstanceElimination", "src/expr.cc:VarSlice::remove_sink"]}
{"id": "C164", "title": "The hash of a module distinguishes single changes", "statement": "When two modules differ in exactly one of: one character of the module name, one character of a variable name, the edge of one event of a sequential block, one character of the printed target or source of a continuous assignment, the two sides of a continuous assignment swapped, or one character of the printed condition of an if, their hashes are different.", "quantifier": "all modules without child modules in which the changed statement comes after the last whole group of four hashed statements (all modules with at most three hashed statements); for a change of the module name or of a variable name, modules with at most three hashed statements; for swapped sides, names whose 64-bit hashes are neither equal nor complements; 64-bit widths", "why_tests_cant": "Tests compare a handful of modules; that no two modules of these families collide is a statement about every name, body and statement, resting on each step of the two hash functions being one-to-one.", "anchors": ["src/hash.cc:hash_64_fnv1a", "src/hash.cc:XXHash64", "src/hash.cc:HashVisitor", "src/hash.cc:hash_generator"]}
{"id": "C165", "title": "Equal negative constants are ordered as equal", "statement": "Evaluating <= or >= on two equal negative signed constants gives 1, and < or > gives 0. (Refuted: all four give the opposite.)", "quantifier": "every width 1..63 and every negative bit pattern", "why_tests_cant": "a wrong answer confined to equal negative operands is not met by sampling pairs", "anchors": ["src/eval.cc:eval_bin_op"]}
{"id": "C166", "title": "Removing single-use wires keeps the behaviour", "statement": "After the removal of wires with one use, a design can go through exactly the settled states it could go through before, apart from the variables that were bypassed: every history of the original is a history of the result, and every history of the result is one of the original once the bypassed variables get the value of the wire's end. The pass ends, and no three single-use wires in a row are left.", "quantifier": "every flat design of wires, combinational and clocked processes whose chains of single-use wires start with variables that are not clocks or loop variables, whose wires have both sides of one type and no second driver, whose processes that read the end of a chain assign its start by non-blocking assignments only, and whose chains are not circular; every history of settled states", "why_tests_cant": "chains combine freely with processes, instances and other chains, and a test sees one netlist", "anchors": ["src/optimize.cc:VarFanOutVisitor", "src/optimize.cc:remove_fanout_one_wires", "src/expr.cc:Var::move_src_to"]}
{"id": "C167", "title": "Removing single-use wires keeps every signal driven once", "statement": "The removal of single-use wires leaves every output port with the driver it had and gives no signal a second one, also when a chain starts or passes at a port. (Refuted: input -> a -> b with b a variable leaves b undriven; an output in the middle of a chain is left undriven; a chain between two outputs gives the second a second driver.)", "quantifier": "every design of wires", "why_tests_cant": "only chains with a port at the wrong place show it", "anchors": ["src/optimize.cc:VarFanOutVisitor"]}
{"id": "C168", "title": "Removing single-use wires keeps clocks connected", "statement": "A process whose clock or reset goes through wires is triggered by the same events after the removal of single-use wires. (Refuted: the use in an event control is not counted, so the clock of a process is bypassed and left undriven while the process still waits for it.)", "quantifier": "every design with a clock that is a variable with a driver", "why_tests_cant": "tests of the pass have no clocked process on the chain", "anchors": ["src/optimize.cc:VarFanOutVisitor", "src/stmt.cc:SequentialStmtBlock"]}
{"id": "C169", "title": "Removing single-use wires keeps the order of blocking assignments", "statement": "A combinational process that assigns the start of a chain of wires and reads its end computes the same values after the removal. (Refuted: the assignments then go directly to the end, and the read in between sees the new value.)", "quantifier": "every design whose chains consist of variables", "why_tests_cant": "needs a process on both ends of a chain", "anchors": ["src/optimize.cc:VarFanOutVisitor", "src/expr.cc:Var::move_src_to"]}
{"id": "C170", "title": "Removing single-use wires ends", "statement": "The removal of single-use wires ends for every design. (Refuted: on every circle of single-use wires the search for the end of the chain recurses without end.)", "quantifier": "every design", "why_tests_cant": "a circle of wires is not in the tests", "anchors": ["src/optimize.cc:VarFanOutVisitor::compute_assign_chain"]}
{"id": "C171", "title": "Tying constants to ports keeps the behaviour", "statement": "After constants carried to a port of an instance by a variable have been assigned to the port directly, a design can go through exactly the settled states it could go through before, apart from the variables that are gone. Every such variable is gone, its port is assigned the constant in the same generator, and a second run changes nothing.", "quantifier": "every flat design in which a variable with one constant source and one use at a port of an instance has both in continuous assignments of the generator, the second one of the variable itself, all of one type, and is no clock and no loop variable; every history of settled states", "why_tests_cant": "the variables combine freely with processes, instances and each other, and a test sees one netlist", "anchors": ["src/optimize.cc:MergeConstPortVisitor", "src/optimize.cc:merge_const_port_assignment", "src/generator.cc:Generator::remove_stmt"]}
{"id": "C172", "title": "Tying constants to ports keeps what the port is assigned", "statement": "If a port of an instance is assigned an expression of a constant variable, it has the same value after the pass. (Refuted: the right side of the assignment to the port is not looked at, so that a port assigned the inverse of a variable that is 1 becomes 1.)", "quantifier": "every design of continuous assignments in which every signal has one driver", "why_tests_cant": "only an expression between the variable and the port shows it", "anchors": ["src/optimize.cc:MergeConstPortVisitor"]}
{"id": "C173", "title": "Tying constants to ports keeps when a constant is assigned", "statement": "If the constant is assigned by a register or under a condition, the port has the same values after the pass. (Refuted: a register that becomes 1 at its first edge, and a variable set to 1 under a condition, become the constant 1 from the start.)", "quantifier": "every design whose assignments to ports of instances are plain wires", "why_tests_cant": "tests of the pass assign constants by wires", "anchors": ["src/optimize.cc:MergeConstPortVisitor"]}
{"id": "C174", "title": "Tying constants to ports keeps clocks connected", "statement": "A process whose clock is such a variable is triggered by the same events after the pass. (Refuted: a use in an event control is not counted; the variable is removed and the process waits for a signal without a driver.)", "quantifier": "every design of wires and clocked processes", "why_tests_cant": "a constant clock is not in the tests", "anchors": ["src/optimize.cc:MergeConstPortVisitor"]}
{"id": "C175", "title": "Moving the uses of a signal moves them all", "statement": "Moving the uses of a signal a in a generator to a signal b of the same type leaves no use of a in it, turns every use into a use of b, and changes nothing else: no assignment, no event control, no other generator. If the two stay connected by an assignment, the design can go through exactly the same settled states as with that assignment alone. Which uses stay, and when an exception is thrown instead, is characterised exactly.", "quantifier": "every flat design, generator and pair of signals; for the first part, generators without the uses that stay (extensions of a, slices of a in concatenations and as the condition of a choice, second occurrences in a concatenation, slices of expressions, indices of a target, tests and returns that are a itself); for the states, processes that use a and do not change a or b before they end", "why_tests_cant": "uses are nested in expressions and statements of any depth, and a test lists a few", "anchors": ["src/expr.cc:Var::move_sink_to", "src/expr.cc:change_var_expr", "src/expr.cc:stmt_set_right", "src/expr.cc:set_slice_var_parent", "src/generator.cc:Generator::replace", "src/transform.cc:PortBundleVisitor"]}
{"id": "C176", "title": "Moving the uses of a signal leaves none behind", "statement": "After the uses of a signal have been moved without an exception, no statement of the generator uses it. (Refuted: the operand of an extension, the second occurrence in a concatenation, a slice as condition of a choice and a signal that is itself the condition of an if or switch stay. After an instance has been replaced they still name the old one.)", "quantifier": "every design of one of these shapes", "why_tests_cant": "each use has to be combined with each way of moving it", "anchors": ["src/expr.cc:change_var_expr", "src/expr.cc:VarExtend", "src/expr.cc:VarConcat::replace_var", "src/stmt.cc:IfStmt", "src/stmt.cc:SwitchStmt"]}
{"id": "C177", "title": "Moving the uses of a signal never fails", "statement": "The uses of a signal can be moved to another signal of the same type without an exception. (Refuted: if a is the index of a target and not on the right side, the use is not found and an exception is thrown.)", "quantifier": "every design of continuous assignments of signals", "why_tests_cant": "the tests do not use an index on the left", "anchors": ["src/expr.cc:stmt_set_right", "src/expr.cc:Var::move_sink_to"]}
{"id": "C178", "title": "Removing pass-through modules keeps the behaviour", "statement": "An instance that only wires each of its inputs to one of its outputs is taken out and replaced by one variable per input. The pass does not fail, takes out exactly these instances, leaves no process of theirs and no use of their ports, does not touch generators that have none of them, and the design can go through exactly the same states on all other signals, the new variable carrying the value of the input and of the output.", "quantifier": "every flat hierarchical design in which each instance without variables whose outputs are assigned ports is plain: it consists of whole wires from inputs to outputs of the same type, its inputs are driven and its outputs used in the generator around it in ways that can be moved (C175), its ports are no clocks, a process that uses an output does not change the input before it ends", "why_tests_cant": "hierarchies of any size, any number of instances and ports, and all state sequences", "anchors": ["src/optimize.cc:RemovePassThroughVisitor", "src/optimize.cc:remove_pass_through_modules", "src/expr.cc:Var::move_src_to", "src/expr.cc:Var::move_sink_to", "kratos/passes.py:remove_pass_through_modules"]}
{"id": "C179", "title": "Only instances without behaviour are taken for pass-through modules", "statement": "Whatever instances are removed as pass-through modules, the ports of the top generator behave as before. (Refuted: a module with a register whose clock is passed on to an output, and a module with a transparent latch, have as many statements as half of their ports and one sink per input; they are removed and become wires.)", "quantifier": "every well-formed hierarchical design", "why_tests_cant": "the test of the pass counts statements; a test would have to hit the counts with logic that is no wire", "anchors": ["src/optimize.cc:is_pass_through", "src/generator.cc:Generator::stmts_count"]}
{"id": "C180", "title": "Nothing refers to a removed pass-through module", "statement": "After the pass-through modules have been removed, no process refers to a port of a removed instance. (Refuted: an if whose condition is an output of the instance, a clocked process whose clock is one, and any use of an output that is assigned as a slice keep naming the removed instance.)", "quantifier": "every well-formed hierarchical design whose removed instances consist of wires", "why_tests_cant": "each way to use an output has to be combined with the pass", "anchors": ["src/optimize.cc:RemovePassThroughVisitor", "src/expr.cc:Var::move_sink_to", "src/expr.cc:VarSlice::sinks", "src/stmt.cc:SequentialStmtBlock::add_condition"]}
{"id": "C181", "title": "Adding, disconnecting and clearing keep the sources and sinks of every signal right", "statement": "After any sequence of adding new assignments to a module, disconnecting two expressions (unwire) and clearing the block: the sources of a signal are exactly the assignments in the module that assign it or a part of it; its sinks include every assignment in the module that uses it, and are exactly those when no assignment selects a part of a signal or when nothing has been taken away. Disconnecting removes one assignment that connects the two expressions in either direction, if there is one, and no other. No step throws.", "quantifier": "every table of assignments to signals, parts of signals, concatenations and casts of them from any expression, and every finite sequence of additions (each statement added at most once), disconnections and clearings; any notion of object identity", "why_tests_cant": "the sets are updated incrementally through every kind of expression; a test looks at a few signals after a few calls", "anchors": ["src/stmt.cc:AssignStmt::set_parent", "src/stmt.cc:AssignStmt::clear", "src/generator.cc:Generator::unwire", "src/expr.cc:VarSlice::add_sink", "src/expr.hh:Var::add_source"]}
{"id": "C182", "title": "The sinks of a signal are exactly the assignments that use it, also after parts of signals were disconnected", "statement": "After any sequence of additions, disconnections and clearings, the sinks of a signal are exactly the assignments in the module that use it. (Refuted: after disconnecting y from x[3:0], the removed assignment stays a sink of x; after clearing a block with m[i] = a, it stays a sink of i. Exactly the signals that are only selected from on the right, or are in an index on the left, keep it.)", "quantifier": "every table of assignments and every sequence of additions, disconnections and clearings", "why_tests_cant": "the stale entry only shows in what a later pass does with it", "anchors": ["src/expr.cc:VarSlice::remove_sink", "src/expr.cc:VarVarSlice::remove_source", "src/generator.cc:Generator::unwire"]}
{"id": "C183", "title": "Removing a statement or taking an assignment back updates the sources and sinks", "statement": "After a statement is removed from a module, or an assignment is taken back (unassign), no signal lists it as a source or a sink. (Refuted: removing a statement changes no list; taking an assignment back leaves it a sink of every signal of the right side unless the right side is a single signal.)", "quantifier": "every module whose lists are right and every assignment in it", "why_tests_cant": "the stale entry only shows in what a later pass does with it", "anchors": ["src/generator.cc:Generator::remove_stmt", "src/expr.cc:Var::unassign"]}
{"id": "C184", "title": "A statement that is added again is known to its signals", "statement": "An assignment that was disconnected and is added to the module again is a source of the signals it assigns and a sink of those it uses. (Refuted: it is in the module, and for assignments of whole signals no signal lists it at all.)", "quantifier": "every module built by additions, disconnections and clearings and every assignment in it", "why_tests_cant": "it takes three calls on the same object", "anchors": ["src/stmt.cc:AssignStmt::set_parent", "src/generator.cc:Generator::unwire"]}
{"id": "C185", "title": "An expression means the same wherever it is used", "statement": "The value of an expression in the generated SystemVerilog, where the width and the sign of the context reach the operands, is the value computed from its parts on their own, and an assignment to a signal of its width stores exactly that value; a part of an expression can be given a name (a signal of its width and sign) without changing what is stored. This holds for every well-typed expression whose divisions, remainders, arithmetic shifts and powers are under operators of one sign: in particular for every expression of unsigned signals and constants without powers, and every expression without those operators, whatever the signs.", "quantifier": "every typing of signals, every well-typed expression as described, every value of the signals, every part and every name for it", "why_tests_cant": "the context of an operator is the whole expression around it; a test fixes one expression and a few values", "anchors": ["src/expr.cc:Expr::Expr", "src/codegen.cc:SystemVerilogCodeGen::stmt_code", "src/expr.cc:expr_to_string"]}
{"id": "C186", "title": "An expression with signed and unsigned operands means the same wherever it is used", "statement": "Giving a name (a signal of the same width and sign) to a part of an expression does not change what an assignment of the expression stores, for every mixture of signed and unsigned operands. (Refuted: with signed a, b and unsigned c of 4 bits, a=-4, b=2, c=0, (a / b) + c stores 6 while t = a / b; t + c stores 14; the same for an arithmetic right shift under an or. The generated text has no casts that keep the sign of the part.)", "quantifier": "every typing of signals, every well-typed expression without powers and every part of it", "why_tests_cant": "needs operands of both signs and a negative value", "anchors": ["src/expr.cc:Expr::Expr", "src/expr.cc:expr_to_string"]}
{"id": "C187", "title": "Operands of different widths are brought to one width without changing their numbers", "statement": "An operator of two operands of different widths is accepted, both operands then have the larger width, and each still stands for the same number (sign-extended if signed), when neither is a constant and the left is not wider than the right, or is a signal or a part of one, or the operator is a shift. A constant operand takes the width of the other operand and keeps its number if it is representable in that width.", "quantifier": "every typing of signals, every binary operator, every pair of well-typed operands as described, and every value of the signals", "why_tests_cant": "widths, signs and kinds of operands combine", "anchors": ["src/expr.cc:Expr::Expr", "src/expr.cc:resize_var", "src/expr.cc:Var::safe_to_resize"]}
{"id": "C188", "title": "Operands of different widths are never cut off", "statement": "An operator of two operands that are not constants either is rejected or keeps the numbers of both operands. (Refuted: when the left operand is an operator that is wider than the right, it is cut off to the width of the right, silently: (a + b) + c with 8-bit a, b and 4-bit c is computed in 4 bits. Proved for every such pair: the left operand is used modulo two to the width of the right.)", "quantifier": "every typing of signals, every binary operator, every pair of well-typed operands that are not constants", "why_tests_cant": "the result is legal SystemVerilog of the expected form; only some values of the operands show it", "anchors": ["src/expr.cc:Expr::Expr", "src/expr.cc:Var::safe_to_resize"]}
{"id": "C189", "title": "A constant operand that does not fit is not silently changed", "statement": "An operator of an expression and a constant either keeps the number of the constant or is rejected. (Refuted: a 4-bit signal plus the 8-bit constant 20 is accepted and the constant is 20 with width 4.)", "quantifier": "every typing of signals, every operator, every well-typed left operand and every constant of 1 to 64 bits", "why_tests_cant": "needs a value outside the narrower width", "anchors": ["src/expr.cc:Expr::Expr", "src/expr.cc:resize_var", "src/expr.cc:Var::set_width"]}
{"id": "C190", "title": "Building an expression does not change the expressions that exist", "statement": "An operator that has a width keeps it when another operator is built from one of its operands. (Refuted: a constant object used with operands of two different widths takes the width of the second in place; the first operator then throws whenever its width is asked for. Proved for every pair of different widths.)", "quantifier": "every assignment of widths to constant objects and every two operators that share a constant", "why_tests_cant": "needs the same constant object in two expressions of different widths", "anchors": ["src/expr.cc:Expr::Expr", "src/expr.cc:Expr::width"]}
{"id": "C191", "title": "An assignment that passes the check stores the value of its right side", "statement": "When the check of assignments accepts an assignment, both sides have the same width and sign, the right side is unchanged except that a constant is given the width of the left, a constant of at most 64 bits keeps its number, and what is stored is the value of the right side. A right side that is not a constant and has another width or sign is rejected.", "quantifier": "every typing of signals, every well-typed right side (whose sign-dependent operators have operands of one sign), every width and sign of the left side and every value of the signals", "why_tests_cant": "quantifies over all expressions and values", "anchors": ["src/analysis.cc:VerifyAssignmentVisitor::visit", "src/analysis.cc:VerifyAssignmentVisitor::check_expr"]}
{"id": "C192", "title": "A passed reset check means resets work", "statement": "When the check of resets passes: each asynchronous reset port is used with one edge in all sensitivity lists, the declared one if there is one; a port declared a synchronous reset is in no sensitivity list; a test of the port for high (if (rst)) or low (if (~rst), if (!rst)) agrees with the edge. So a process 'if (test of rst) A else B' sensitive to rst runs A exactly when rst is at the level that follows its edge, and it is at the edge. A design in which these hold and every such test is in a process sensitive to the reset passes. The check of sensitivity lists passes exactly when every entry is a clock or an asynchronous reset.", "quantifier": "every design, every assignment of port types and declared polarities, every state of the simulation", "why_tests_cant": "quantifies over all processes of a design and all states", "anchors": ["src/analysis.cc:ActiveVisitor", "src/analysis.cc:check_active_high", "src/analysis.cc:SensitivityVisitor"]}
{"id": "C193", "title": "A passed reset check means every reset works", "statement": "When the check of resets passes, a process sensitive to an asynchronous reset whose body is an if on an expression of the reset takes the first branch when the reset is at the level that follows its edge, and signals cast to resets are used with one edge. (Refuted: if (rst == 0) in a process on posedge rst passes; a signal cast to an asynchronous reset is used with posedge in one process and negedge in another.)", "quantifier": "every design and every form of the predicate", "why_tests_cant": "only predicates that are the port or its complement are looked at", "anchors": ["src/analysis.cc:ActiveVisitor::visit"]}
{"id": "C194", "title": "The verdict of the reset check does not depend on the order of the processes", "statement": "Two designs with the same processes in a different order both pass or both fail the check of resets. (Refuted: a combinational process testing the reset passes after the sequential process and fails before it.)", "quantifier": "every design and every reordering of its processes", "why_tests_cant": "needs two orders of the same design", "anchors": ["src/analysis.cc:ActiveVisitor::visit"]}
{"id": "C195", "title": "A reported combinational loop is an assignment that reads the signal it assigns", "statement": "The check of combinational loops fails exactly when a continuous assignment has the signal it assigns (or assigns a part of) as an operand of the operators on its right side; such an assignment assigns and reads that signal.", "quantifier": "every design", "why_tests_cant": "quantifies over all assignments and expressions", "anchors": ["src/analysis.cc:CombinationalLoopVisitor", "src/analysis.cc:check_combinational_loop"]}
{"id": "C196", "title": "A design that passes the check of combinational loops has a stable state", "statement": "When the check passes there are values of the signals that no continuous assignment changes. (Refuted: x = ~y with y = x; x = x ? 0 : 1, as the condition is not looked at; x[0] = ~x[0], as parts of signals are not looked at. None has a stable state and all pass.)", "quantifier": "every design of continuous assignments", "why_tests_cant": "needs a loop of a form the check does not look at", "anchors": ["src/analysis.cc:CombinationalLoopVisitor::has_var"]}
{"id": "C197", "title": "An assignment that is stable after running once is not reported as a loop", "statement": "A continuous assignment that changes nothing when it runs a second time, from every state, passes the check of combinational loops. (Refuted: x[0] = |(x & 2'b10) depends only on x[1] and is reported.)", "quantifier": "every continuous assignment", "why_tests_cant": "bits of one signal are not told apart", "anchors": ["src/analysis.cc:CombinationalLoopVisitor::check_var"]}
{"id": "C198", "title": "A passed connectivity check means every bit has an assignment", "statement": "The check of connections passes exactly when every bit of every port of every module with a body, except the inputs of the first such module, has an assignment in the design to the port, to a part with that bit, or to an element chosen by an index.", "quantifier": "every design, every list of modules and ports, every width", "why_tests_cant": "quantifies over all ports and bits", "anchors": ["src/analysis.cc:connected", "src/analysis.cc:GeneratorConnectivityVisitor"]}
{"id": "C199", "title": "A passed connectivity check means every bit is driven", "statement": "When the check of connections passes, every bit of an output can be changed by an assignment, and every input of a module below the top is assigned. (Refuted: x[i] with a one-bit i counts as driving all four bits of x; when the top module is external or a stub, the inputs of the first module below it are not checked.)", "quantifier": "every design and every list of modules", "why_tests_cant": "needs an index narrower than the port, or a stub on top", "anchors": ["src/analysis.cc:connected", "src/analysis.cc:GeneratorConnectivityVisitor::visit"]}
{"id": "C200", "title": "A design whose outputs and instance inputs are driven passes the connectivity check", "statement": "The check of connections passes when every bit of every output and of every input of an instance is driven. (Refuted: an inout port of the top module that is only read is reported as a floating net.)", "quantifier": "every design and every list of modules", "why_tests_cant": "needs a bidirectional port", "anchors": ["src/analysis.cc:GeneratorConnectivityVisitor::visit"]}
{"id": "C201", "title": "Passed assignment checks mean one kind of assignment per signal", "statement": "The check of mixed assignments passes exactly when any two assignments to a signal or parts of it are of the same kind (blocking, non-blocking); the check of wires passes exactly when no signal is assigned both by a continuous assignment and in a process. When the first passes, the extracted registers are exactly the signals with a non-blocking assignment, in whatever order the assignments are kept.", "quantifier": "every design, every list of signals, every order of the sets of assignments", "why_tests_cant": "quantifies over all pairs of assignments and over the order of hash sets", "anchors": ["src/analysis.cc:MixedAssignmentVisitor", "src/analysis.cc:VerifyAssignmentVisitor::check_var", "src/analysis.cc:extract_register_names"]}
{"id": "C202", "title": "Assignments that use visible signals pass the check of names", "statement": "An assignment whose right side uses only signals that can be named in the module it belongs to (signals of that module and ports of its instances) passes the check of names, for every expression. A right side that is a signal or a part of one, assigned to a signal that is not an input, passes only if it is visible, unless it belongs to a sibling of the module.", "quantifier": "every instance hierarchy, every assignment of signals to modules, every expression", "why_tests_cant": "the module of an operator is computed from those of its operands", "anchors": ["src/analysis.cc:MixedAssignmentVisitor::check_var_parent", "src/analysis.cc:MixedAssignmentVisitor::has_non_port", "src/expr.cc:Expr::set_parent"]}
{"id": "C203", "title": "Assignments that pass the check of names use visible signals only", "statement": "An assignment that passes the check of names uses only signals of its module and ports of the instances in it. (Refuted: a port of a sibling module is accepted; an internal signal of an instance is accepted as left operand of an operator with a signal of the module; an input of an instance may be driven from an internal signal of another instance.)", "quantifier": "every instance hierarchy, every assignment of signals to modules, every expression", "why_tests_cant": "needs hierarchies with siblings or operators over modules", "anchors": ["src/analysis.cc:MixedAssignmentVisitor::check_var_parent", "src/expr.cc:Expr::set_parent"]}
{"id": "C204", "title": "After an evaluation of the simulator everything is settled", "statement": "In a design whose signals have one driver each, whose wires and combinational processes assign blocking, do not read what they drive and contain no conditional expression, whenever an evaluation ends, every wire and combinational process all of whose inputs have a value is settled: running it on the values of the simulator changes nothing. This holds after any sequence of settings of inputs and evaluations and for any order in which the dependents of a signal are walked.", "quantifier": "every design of that form, every history of calls, every order of hash sets", "why_tests_cant": "quantifies over designs, histories and iteration orders", "anchors": ["src/sim.cc:Simulator::eval", "src/sim.cc:Simulator::trigger_event", "src/sim.cc:Simulator::set_value_", "src/sim.cc:DependencyVisitor"]}
{"id": "C205", "title": "Setting an input of a synchronous design makes one clock step", "statement": "In a synchronous design in which no clocked process reads a register of another one, setting an input and evaluating gives the values of the reference step: the clocked processes that wait for this edge run on the old register values and the new input, registers take the queued values, all other registers keep theirs, and wires and combinational processes are settled.", "quantifier": "every synchronous design of that form, every reachable idle state of the simulator in which the signals of the design have values, every input and value, every iteration order", "why_tests_cant": "quantifies over designs, states and iteration orders", "anchors": ["src/sim.cc:Simulator::eval", "src/sim.cc:Simulator::process_stmt(SequentialStmtBlock)", "src/sim.cc:Simulator::set_value_"]}
{"id": "C206", "title": "Evaluation of a design without combinational loops ends", "statement": "For a design with a ranking of its processes along which every process only triggers processes of higher rank, evaluation in any reachable state of the simulator ends.", "quantifier": "every loop-free design, every history of calls, every iteration order", "why_tests_cant": "termination over unbounded queues", "anchors": ["src/sim.cc:Simulator::eval", "src/sim.cc:Simulator::trigger_event"]}
{"id": "C207", "title": "Clocked processes of a simulated design run in parallel", "statement": "Setting an input of any synchronous design and evaluating gives the values of the reference step, also when one clocked process reads a register of another. (Refuted: with q1 <= a and q2 <= q1 in two processes on the same clock q2 takes the new q1 when the first process happens to come first in a hash set, because the queued values of a process are stored before the next process runs.)", "quantifier": "every synchronous design, every iteration order", "why_tests_cant": "depends on the order of a hash set of pointers", "anchors": ["src/sim.cc:Simulator::process_stmt(SequentialStmtBlock)"]}
{"id": "C208", "title": "A simulated wire follows all the signals of its expression", "statement": "When a signal an expression depends on changes, the wire with that expression is evaluated again. (Refuted: for every wire z = c ? a : b where c occurs in neither a nor b, setting c and evaluating leaves z as it was.)", "quantifier": "every wire with a conditional expression, every state of the simulator", "why_tests_cant": "needs a change of the condition alone", "anchors": ["src/sim.cc:DependencyVisitor::get_var_deps", "src/expr.hh:ConditionalExpr"]}
{"id": "C209", "title": "Constants reach the signals they are assigned to", "statement": "In a simulation, a signal assigned a constant has that value. (Refuted: a combinational process or wire that reads nothing, unless it is a plain constant assigned to a wire outside a port connection, never runs; what it assigns has no value after any history of calls.)", "quantifier": "every process that reads nothing, every history of calls, every iteration order", "why_tests_cant": "quantifies over histories", "anchors": ["src/sim.cc:InitValueVisitor", "src/sim.cc:Simulator::init_pull_up_value", "src/sim.cc:DependencyVisitor"]}
{"id": "C210", "title": "Disjoint slices of a signal are told of changes of their bits", "statement": "When bits of a signal change in the simulator, exactly those slices are evaluated again that contain a changed bit, provided the slices used in the design do not overlap; in any case no slice without a changed bit is.", "quantifier": "every list of slices in any order, every set of changed bits", "why_tests_cant": "quantifies over slices and orders", "anchors": ["src/sim.cc:DependencyVisitor::compute_linked_dep", "src/sim.cc:Simulator::trigger_event"]}
{"id": "C211", "title": "Overlapping slices of a signal are told of changes of their bits", "statement": "When bits of a signal change in the simulator, every slice that contains a changed bit is evaluated again. (Refuted: a slice all of whose bits lie in slices met earlier is never told, whatever changes.)", "quantifier": "every list of slices, every set of changed bits", "why_tests_cant": "depends on the order in which slices are met", "anchors": ["src/sim.cc:DependencyVisitor::compute_linked_dep", "src/sim.cc:Simulator::trigger_event"]}
{"id": "C212", "title": "Evaluation reads only live elements of its queue", "statement": "Taking the next event of a non-empty queue reads an element of the queue. (Refuted: the element is bound by reference and removed before it is read, for every non-empty queue.)", "quantifier": "every non-empty queue", "why_tests_cant": "undefined behaviour that usually goes unnoticed", "anchors": ["src/sim.cc:Simulator::eval"]}
{"id": "C213", "title": "Declarations have the dimensions, sign and type of the signal", "statement": "The generated declaration of a port or variable, read as SystemVerilog, has the signal's name, direction, type and sign, its packed and unpacked dimensions in order, each range one less than the dimension, whether the dimension is a number or an expression over parameters.", "quantifier": "every port with dimensions that print; for a width expression one whose operator binds at least as tightly as minus; every such variable whose type is no type parameter, that is no array of an enum type wider than a bit, and has no unit dimension given by a parameter", "why_tests_cant": "dimensions and expressions are unbounded", "anchors": ["src/codegen.cc:get_port_str", "src/codegen.cc:get_var_decl", "src/codegen.cc:get_var_width_str", "src/codegen.cc:get_width_str", "src/codegen.cc:get_var_size_str"]}
{"id": "C214", "title": "Width expressions keep their meaning in ranges", "statement": "A signal whose width is an expression over parameters is declared with a range from the value of the expression less one.", "quantifier": "every binary operator", "why_tests_cant": "there are many operators and the text must be parsed", "anchors": ["src/codegen.cc:get_var_width_str"]}
{"id": "C215", "title": "Variables are declared with the shape and type they were given", "statement": "A variable whose dimension is a parameter is declared as an array for every value of the parameter, and one whose type is a type parameter with that type.", "quantifier": "every variable", "why_tests_cant": "depends on values of parameters", "anchors": ["src/codegen.cc:get_var_decl"]}
{"id": "C216", "title": "Port headers list every port once in a fixed order", "statement": "The header of a module lists each plain port once and each interface instance once, with a comma between any two entries and none after the last, no output before an input and ports of one direction in alphabetical order.", "quantifier": "every set of ports that does not have all three directions", "why_tests_cant": "sets of ports are unbounded", "anchors": ["src/codegen.cc:generate_ports", "src/codegen.cc:generate_port_interface"]}
{"id": "C217", "title": "Port headers can be printed for every combination of directions", "statement": "The order of ports is a strict weak order, as the sorting function requires, so that every set of ports is printed.", "quantifier": "every set of ports, inputs, outputs and inouts together", "why_tests_cant": "undefined behaviour need not show in a test", "anchors": ["src/codegen.cc:generate_ports"]}
{"id": "C218", "title": "Parameters elaborate to their values", "statement": "Elaborating the generated instances, with overrides where printed and defaults elsewhere, gives every parameter the value it has in the generator.", "quantifier": "every path of instances of any depth, parameters with numbers or set from a parameter of the enclosing module", "why_tests_cant": "paths are unbounded", "anchors": ["src/codegen.cc:generate_parameters", "src/codegen.cc:stmt_code", "src/expr.cc:Param::value_str"]}
{"id": "C219", "title": "Enum parameters elaborate to their values", "statement": "A parameter of an enum type set to a value elaborates to that value.", "quantifier": "every enum parameter not set from another parameter", "why_tests_cant": "every value of the type", "anchors": ["src/codegen.cc:stmt_code", "src/expr.cc:Param::value_str"]}
{"id": "C220", "title": "Enum types are printed with every label once", "statement": "The definition of an enum type lists every label once with its value, in increasing order of values, separated by commas; after any accepted sequence of definitions no label and no type name is defined twice and all values fit.", "quantifier": "every sequence of definitions", "why_tests_cant": "sequences and labels are unbounded", "anchors": ["src/codegen.cc:enum_code_", "src/expr.cc:Enum::verify_naming_conflict", "src/context.cc:enum_"]}
{"id": "C221", "title": "Enum definitions are legal SystemVerilog", "statement": "An enum definition that gives two labels the same value is rejected.", "quantifier": "every definition", "why_tests_cant": "every pair of labels", "anchors": ["src/expr.cc:Enum::Enum", "src/codegen.cc:enum_code_"]}
{"id": "C222", "title": "The else action of a property runs when the property fails", "statement": "The else statement of an assertion is printed as its fail action.", "quantifier": "every assertion on a property or value", "why_tests_cant": "text must be parsed", "anchors": ["src/codegen.cc:stmt_code"]}
{"id": "C223", "title": "Package headers are well formed", "statement": "The header of a package, printed with its include guard, opens and closes guard and package properly and holds every line of every definition.", "quantifier": "every list of definitions", "why_tests_cant": "lists are unbounded", "anchors": ["src/codegen.cc:generate_sv_package_header"]}
{"id": "C224", "title": "Flattened wrappers have one port for each element", "statement": "The wrapper of a module has a port for each element of each array port, under distinct names, and no others.", "quantifier": "every accepted list of ports and any number of dimensions", "why_tests_cant": "dimensions are unbounded", "anchors": ["src/codegen.cc:create_wrapper_flatten", "src/util.cc:get_flatten_slices"]}
{"id": "C225", "title": "Generated files hold the generated text", "statement": "After generating a package every module file and the header hold their text, files that held it already are left as they were, and no other file changes.", "quantifier": "every state of the file system, every set of modules", "why_tests_cant": "states of the file system are unbounded", "anchors": ["src/codegen.cc:generate_verilog_pkg"]}
{"id": "C226", "title": "Every module knows the file it is in", "statement": "After generating a package every generated module has the name of its file recorded.", "quantifier": "every state of the file system", "why_tests_cant": "depends on files of earlier runs", "anchors": ["src/codegen.cc:generate_verilog_pkg"]}
{"id": "C227", "title": "Package headers without an include guard are well formed", "statement": "The header of a package is well formed also without an include guard.", "quantifier": "every list of definitions", "why_tests_cant": "lists are unbounded", "anchors": ["src/codegen.cc:generate_sv_package_header"]}
{"id": "C228", "title": "Every module can be wrapped", "statement": "A flattening wrapper can be made of every module with distinct port names.", "quantifier": "every list of ports with distinct names", "why_tests_cant": "names are unbounded", "anchors": ["src/codegen.cc:create_wrapper_flatten"]}
{"id": "C229", "title": "Lines recorded for debugging are the lines of the text", "statement": "In debug mode the line recorded for a statement, declaration, block, function, instance or the module is the line of the generated text it starts on, and every printed one of these has a line.", "quantifier": "every module, statements nested to any depth; clocked blocks, port connections and case statements excepted; no function without ports", "why_tests_cant": "nesting and lengths are unbounded", "anchors": ["src/codegen.cc:Stream::endl", "src/codegen.cc:dispatch_node", "src/codegen.cc:stmt_code", "src/codegen.cc:output_module_def"]}
{"id": "C230", "title": "Lines recorded for clocked blocks", "statement": "The line recorded for an always_ff block is the line it starts on.", "quantifier": "every module and clocked block", "why_tests_cant": "positions are unbounded", "anchors": ["src/codegen.cc:stmt_code"]}
{"id": "C231", "title": "Functions without ports do not disturb recorded lines", "statement": "Lines recorded for statements are right whatever functions the module has.", "quantifier": "every module", "why_tests_cant": "positions are unbounded", "anchors": ["src/codegen.cc:stmt_code"]}
{"id": "C232", "title": "Lines recorded for port connections", "statement": "The line recorded for a connection of an instance is the line the connection is on.", "quantifier": "every instance and connection", "why_tests_cant": "numbers of connections are unbounded", "anchors": ["src/codegen.cc:generate_port_interface"]}
{"id": "C233", "title": "Case statements have a line", "statement": "In debug mode a line is recorded for every case statement.", "quantifier": "every module and case statement", "why_tests_cant": "positions are unbounded", "anchors": ["src/codegen.cc:stmt_code", "src/debug.cc:DebugInfoVisitor"]}
{"id": "C234", "title": "The module is entered under its line", "statement": "Debug information enters the module under the line it starts on.", "quantifier": "every module, with or without a package", "why_tests_cant": "options vary", "anchors": ["src/debug.cc:GeneratorDebugVisitor", "src/codegen.cc:output_module_def"]}
{"id": "C235", "title": "A call passes each argument to its formal", "statement": "In the printed call of a function or DPI function the argument given for a formal stands at the place of that formal in the declaration.", "quantifier": "every function and call with exactly its formals as arguments; the arguments are pairwise different or no order is set", "why_tests_cant": "numbers of formals and orders are unbounded", "anchors": ["src/expr.cc:FunctionCallVar::to_string", "src/codegen.cc:stmt_code", "src/analysis.cc:extract_dpi_function"]}
{"id": "C236", "title": "An argument may be used twice", "statement": "A call with the same argument for two formals passes it to both.", "quantifier": "every function with an order of its formals and every call", "why_tests_cant": "numbers of formals are unbounded", "anchors": ["src/expr.cc:FunctionCallVar::to_string"]}
{"id": "C237", "title": "Calls are checked and typed", "statement": "A call that is accepted gives every formal an argument of its width and sign, and its value has the width and sign of what the function returns.", "quantifier": "every function, its returns, and every call", "why_tests_cant": "numbers of formals and widths are unbounded", "anchors": ["src/expr.cc:FunctionCallVar::FunctionCallVar", "src/stmt.cc:ReturnStmt::set_parent", "src/generator.cc:Generator::call"]}
{"id": "C238", "title": "Calls pass formals only", "statement": "A call that names an argument no formal has is rejected, or the argument is not printed.", "quantifier": "every function and call", "why_tests_cant": "numbers of formals are unbounded", "anchors": ["src/generator.cc:Generator::call", "src/expr.cc:FunctionCallVar::to_string"]}
{"id": "C239", "title": "The declared result of a function has the sign of its returns", "statement": "The result type printed for a function is signed when the values it returns are.", "quantifier": "every function", "why_tests_cant": "widths are unbounded", "anchors": ["src/codegen.cc:stmt_code"]}
{"id": "C240", "title": "Calls of system functions", "statement": "The arguments of a system function are printed in the order given, their number is checked, and the result has the width the language gives it.", "quantifier": "every system function with a result and every call of at most ten arguments", "why_tests_cant": "arguments vary", "anchors": ["src/stmt.cc:BuiltInFunctionStmtBlock", "src/expr.cc:FunctionCallVar::to_string"]}
{"id": "C241", "title": "System functions with many arguments", "statement": "The arguments of a system function are printed in the order given, however many they are.", "quantifier": "every call with more than ten arguments, all different", "why_tests_cant": "numbers are unbounded", "anchors": ["src/generator.cc:Generator::call", "src/expr.cc:FunctionCallVar::to_string"]}
{"id": "C242", "title": "The number of arguments of system tasks is checked", "statement": "A call of a system function without a result is accepted only with a number of arguments it can take.", "quantifier": "every system function without a result, every list of arguments", "why_tests_cant": "numbers are unbounded", "anchors": ["src/stmt.cc:BuiltInFunctionStmtBlock"]}
{"id": "C243", "title": "Signs of system functions", "statement": "The result of a system function has the sign the language gives it.", "quantifier": "every call of a system function", "why_tests_cant": "arguments vary", "anchors": ["src/stmt.cc:BuiltInFunctionStmtBlock"]}
{"id": "C244", "title": "Imports of DPI functions", "statement": "There is one import for each name of a DPI function, and it has the formals, directions, signs and attribute of every function of the name.", "quantifier": "every list of DPI functions of a design", "why_tests_cant": "designs are unbounded", "anchors": ["src/analysis.cc:extract_dpi_function"]}
{"id": "C245", "title": "Imports have the widths of every function", "statement": "Two DPI functions of one name with different widths are rejected.", "quantifier": "every pair of DPI functions", "why_tests_cant": "widths are unbounded", "anchors": ["src/analysis.cc:extract_dpi_function"]}
{"id": "C246", "title": "C types hold the values", "statement": "The C type in an import holds the width declared.", "quantifier": "every width up to 64", "why_tests_cant": "widths vary", "anchors": ["src/analysis.cc:extract_dpi_function"]}
{"id": "C247", "title": "C types of wide values", "statement": "The C type in an import holds the width declared, also above 64 bits.", "quantifier": "every width", "why_tests_cant": "widths are unbounded", "anchors": ["src/analysis.cc:extract_dpi_function"]}
{"id": "C248", "title": "Attributes of DPI functions can be taken back", "statement": "Setting that a DPI function is not pure, or is not a context function, makes it an ordinary function.", "quantifier": "every DPI function", "why_tests_cant": "histories vary", "anchors": ["src/stmt.hh:DPIFunctionStmtBlock", "src/stmt.cc:set_is_context", "src/stmt.cc:set_is_pure"]}
{"id": "C249", "title": "Calls of DPI functions have the type of the import", "statement": "The width and sign of the call of a DPI function are those of the C type of the import.", "quantifier": "every DPI function and call", "why_tests_cant": "widths are unbounded", "anchors": ["src/analysis.cc:extract_dpi_function", "src/expr.cc:FunctionCallVar::FunctionCallVar"]}
{"id": "C250", "title": "Definitions of interfaces", "statement": "However an interface is defined, names of ports, of variables and of modports are distinct among themselves, ports keep their definition, and a modport lists as inputs only input ports and variables and as outputs only output ports and variables.", "quantifier": "every sequence of accepted definitions", "why_tests_cant": "histories are unbounded", "anchors": ["src/interface.cc:InterfaceDefinition::port", "src/interface.cc:InterfaceDefinition::var", "src/interface.cc:set_input", "src/interface.cc:set_output"]}
{"id": "C251", "title": "Ports and variables of an interface have different names", "statement": "An interface cannot have a port and a variable of one name.", "quantifier": "every definition", "why_tests_cant": "histories are unbounded", "anchors": ["src/interface.cc:InterfaceDefinition::port", "src/interface.cc:InterfaceDefinition::var"]}
{"id": "C252", "title": "Unknown names in a modport are rejected", "statement": "Setting a name the interface does not have as input or output of a modport is rejected.", "quantifier": "every definition, modport and name", "why_tests_cant": "names are unbounded", "anchors": ["src/interface.cc:set_input", "src/interface.cc:set_output"]}
{"id": "C253", "title": "Inout ports in modports", "statement": "A port of both directions can be part of a modport.", "quantifier": "every definition with an inout port", "why_tests_cant": "names are unbounded", "anchors": ["src/interface.cc:set_input", "src/interface.cc:set_output"]}
{"id": "C254", "title": "Text of a modport", "statement": "The printed modport lists each of its names once with its direction, separated by commas.", "quantifier": "every modport no name of which is both input and output", "why_tests_cant": "numbers of names are unbounded", "anchors": ["src/analysis.cc:extract_interface_info"]}
{"id": "C255", "title": "Text of a modport with a name on both sides", "statement": "The printed modport is a list separated by commas, whatever names were set.", "quantifier": "every modport", "why_tests_cant": "numbers of names are unbounded", "anchors": ["src/analysis.cc:extract_interface_info", "src/interface.cc:InterfaceModPortDefinition::ports"]}
{"id": "C256", "title": "Directions through a modport", "statement": "Through a reference to a modport a port is an input exactly if it was set as one, and an output exactly if it was set as one.", "quantifier": "every definition, modport and name that is no variable", "why_tests_cant": "histories are unbounded", "anchors": ["src/interface.cc:get_modport_ref"]}
{"id": "C257", "title": "Directions of variables through a modport", "statement": "Through a reference to a modport a variable set as input is an input.", "quantifier": "every definition, modport and variable", "why_tests_cant": "histories are unbounded", "anchors": ["src/interface.cc:get_modport_ref"]}
{"id": "C258", "title": "The definition of an interface fits its uses", "statement": "One definition is generated for each interface used, and it has the ports and variables of every use.", "quantifier": "every list of instances of interfaces; no interface has the name of a modport of another", "why_tests_cant": "designs are unbounded", "anchors": ["src/analysis.cc:InterfaceVisitor", "src/analysis.cc:extract_interface_info"]}
{"id": "C259", "title": "Modports of interfaces of one name", "statement": "The modports of every interface used are in the generated definition.", "quantifier": "every pair of interfaces of the same name, ports and variables", "why_tests_cant": "designs are unbounded", "anchors": ["src/analysis.cc:InterfaceVisitor"]}
{"id": "C260", "title": "Designs that use modports only", "statement": "An interface used through modports only is defined in the generated text.", "quantifier": "every design", "why_tests_cant": "designs are unbounded", "anchors": ["src/analysis.cc:InterfaceVisitor"]}
{"id": "C261", "title": "Names of instances of interfaces", "statement": "The name of an instance of an interface differs from those of other instances and of signals declared before it.", "quantifier": "every sequence of accepted declarations in a module", "why_tests_cant": "histories are unbounded", "anchors": ["src/generator.cc:Generator::interface"]}
{"id": "C262", "title": "Signals declared after an interface", "statement": "A signal cannot take the name of an instance of an interface.", "quantifier": "every sequence of declarations in a module", "why_tests_cant": "histories are unbounded", "anchors": ["src/generator.cc:Generator::interface", "src/generator.cc:Generator::var"]}
{"id": "C263", "title": "Connections of a module with interfaces", "statement": "An instance of a module connects each of its ports to what was wired to it, and each of its interfaces once, to the one outer interface all its ports are wired to.", "quantifier": "every list of ports of an instance; names of ports distinct and different from those of interfaces", "why_tests_cant": "numbers of ports are unbounded", "anchors": ["src/codegen.cc:generate_port_interface", "src/stmt.cc:ModuleInstantiationStmt"]}
{"id": "C264", "title": "Connections of interface instances", "statement": "An instance of an interface connects each port to what was wired to it, also a slice or an expression.", "quantifier": "every list of ports of an instance of an interface", "why_tests_cant": "numbers of ports are unbounded", "anchors": ["src/codegen.cc:generate_port_interface", "src/stmt.cc:InterfaceInstantiationStmt"]}
{"id": "C265", "title": "Inlining an instance keeps the behaviour of the design", "statement": "When a generator's marked instances are inlined (whose siblings have no instances of their own), and ports are connected to whole signals of the same type, inputs are assigned by their connection only, outputs are read by their connection only, signals on inputs are not plain copies, and uses can be moved, the pass succeeds; every sequence of settled states before is one after, every one after is one before up to the dissolved ports; the dissolved ports are not read, assigned or waited for any more; no process is left in the inlined instances; the variables of the instances belong to the generator.", "quantifier": "all type environments, hierarchies, markings, flat designs, generators that meet the stated conditions; all state histories of any length", "why_tests_cant": "The claim is about all histories of all designs with any number of instances, ports and processes; tests compare the text of one small design.", "anchors": ["src/optimize.cc:inline_instance", "src/optimize.cc:InlineGeneratorVisitor", "src/generator.cc:Generator::transfer_content", "src/expr.cc:Var::move_sink_to"]}
{"id": "C266", "title": "Inlining keeps the registers of the enclosing generator", "statement": "A register of the enclosing generator that copies a signal and feeds an input of an inlined instance stays a register.", "quantifier": "all designs and histories", "why_tests_cant": "A test would have to combine a copying flip-flop with an inlined instance and compare behaviour over time.", "anchors": ["src/optimize.cc:inline_instance"]}
{"id": "C267", "title": "Inlining keeps what an instance computes from its own outputs", "statement": "Processes of an inlined instance that read its own outputs are kept.", "quantifier": "all designs", "why_tests_cant": "Needs an instance that reads its own output.", "anchors": ["src/optimize.cc:inline_instance", "src/expr.cc:Var::clear_sinks"]}
{"id": "C268", "title": "The result of inlining does not depend on the order of visits", "statement": "Whatever the order in which the thread pool visits the generators, the same instances are inlined.", "quantifier": "all hierarchies and visiting orders", "why_tests_cant": "The order of the pool differs from run to run; a test sees one order.", "anchors": ["src/ir.cc:visit_generator_root_tp", "src/optimize.cc:inline_instance"]}
{"id": "C269", "title": "Removed ports are not named after inlining", "statement": "After inlining no statement names a port that was removed.", "quantifier": "all designs", "why_tests_cant": "Depends on the form of the use.", "anchors": ["src/optimize.cc:inline_instance", "src/expr.cc:Var::move_sink_to"]}
{"id": "C270", "title": "Inlining only looks at variables and statements that exist", "statement": "Inlining never uses a variable or a statement after it is removed.", "quantifier": "all designs", "why_tests_cant": "Use of freed memory may go unnoticed in a run.", "anchors": ["src/optimize.cc:inline_instance"]}
{"id": "C271", "title": "Inlining succeeds on instances connected to each other", "statement": "Inlining an instance whose input is connected to the output of an instance that stays succeeds.", "quantifier": "all designs", "why_tests_cant": "Needs two connected instances with only one marked.", "anchors": ["src/optimize.cc:inline_instance", "src/generator.cc:Generator::remove_var"]}
{"id": "C272", "title": "Variables of an inlined instance have names of their own", "statement": "When no name of the instance or of the generator begins with the name of the instance and an underscore, every variable of the instance keeps its name, or gets the name of the instance in front if the generator has the name, in order, and all names differ.", "quantifier": "all lists of variables and names of any length", "why_tests_cant": "Names clash in unbounded many ways.", "anchors": ["src/generator.cc:Generator::transfer_content", "src/generator.cc:Generator::get_unique_variable_name"]}
{"id": "C273", "title": "No variable of an inlined instance is lost to a name of the generator", "statement": "Every variable of the instance is a variable of the generator afterwards.", "quantifier": "all lists of variables and names", "why_tests_cant": "Needs a name equal to the generated one.", "anchors": ["src/generator.cc:Generator::transfer_content", "src/generator.cc:Generator::get_unique_variable_name"]}
{"id": "C274", "title": "Instances are connected", "statement": "Connecting the instances of a design succeeds and instantiates every generator that is in another one exactly once, in that one. Every input is connected exactly once, to a signal, constant or slice of the generator around the instance, and no process drives it any more. An output is connected, to a signal of the generator around, exactly if that generator uses it.", "quantifier": "every design in which processes stay in their scope, instances drive their outputs, the uses of outputs can be changed and a process that drives an input does not read it; any number of instances and nesting", "why_tests_cant": "which connections need a variable depends on every use of every port, in any order of the ports", "anchors": [["src/transform.cc", "decouple_generator_ports"], ["src/transform.cc", "create_module_instantiation"], ["src/stmt.cc", "InstantiationStmt::process_port"], ["src/expr.cc", "Var::move_src_to"], ["src/expr.cc", "Var::move_sink_to"]]}
{"id": "C275", "title": "Connecting instances keeps the behaviour", "statement": "The processes that are left after the instances are connected, together with the connections, go through the same states as the design before, except for the variables made for the ports.", "quantifier": "every design as in the previous property, every sequence of inputs and clock edges", "why_tests_cant": "the states are compared at every step of executions of any length", "anchors": [["src/transform.cc", "decouple_generator_ports"], ["src/transform.cc", "create_module_instantiation"], ["src/expr.cc", "Var::move_src_to"], ["src/expr.cc", "Var::move_sink_to"]]}
{"id": "C276", "title": "Connecting keeps processes that read the inputs they drive", "statement": "Connecting instances keeps the behaviour also of a process that assigns an input of an instance, reads it and assigns it again.", "quantifier": "every design in which processes stay in their scope", "why_tests_cant": "needs a process that reads an input between two assignments", "anchors": [["src/expr.cc", "Var::move_src_to"], ["src/transform.cc", "decouple_generator_ports"]]}
{"id": "C277", "title": "Inputs left open are reported", "statement": "An input of an instance that nothing drives is reported as not connected when the instances are created.", "quantifier": "every design, instance and input without a driver", "why_tests_cant": "the check is there, but what another pass does first decides whether it is reached", "anchors": [["src/transform.cc", "decouple_generator_ports"], ["src/stmt.cc", "InstantiationStmt::process_port"]]}
{"id": "C278", "title": "Outputs are used through their connections", "statement": "After the instances are connected, the processes of a generator do not name outputs of the instances in it.", "quantifier": "every design, instance and output", "why_tests_cant": "depends on the form of every statement that uses the output", "anchors": [["src/transform.cc", "decouple_generator_ports"], ["src/expr.cc", "Var::move_sink_to"]]}
{"id": "C279", "title": "Instances need not be decoupled first", "statement": "Creating the instances without making variables for their ports first either fails or keeps the behaviour.", "quantifier": "every design", "why_tests_cant": "needs an output that is used in one assignment that is not a copy", "anchors": [["src/stmt.cc", "InstantiationStmt::process_port"], ["src/transform.cc", "create_module_instantiation"]]}
{"id": "C280", "title": "Unused variables are removed exactly", "statement": "Removing unused variables removes from a generator exactly the plain variables that no statement of the design reads or assigns; ports, and everything in generators that are external, stay, and what stays keeps its order.", "quantifier": "every design, generator and variable", "why_tests_cant": "a variable is unused only if none of the statements anywhere uses it", "anchors": [["src/optimize.cc", "remove_unused_vars"], ["src/generator.cc", "Generator::remove_var"]]}
{"id": "C281", "title": "Removing empty blocks changes nothing", "statement": "Removing statements that do nothing removes exactly the always blocks without statements; the design goes through the same states as before, the other blocks keep their order and a second run removes nothing.", "quantifier": "every design, every sequence of inputs and clock edges", "why_tests_cant": "states are compared at every step of executions of any length", "anchors": [["src/optimize.cc", "remove_unused_stmts"], ["src/generator.cc", "Generator::remove_stmt"]]}
{"id": "C282", "title": "A removed variable is named nowhere", "statement": "A variable that is in the event control of an always block is not removed as unused.", "quantifier": "every design and variable", "why_tests_cant": "needs a block that is triggered by a variable that nothing reads or assigns", "anchors": [["src/optimize.cc", "remove_unused_vars"]]}
{"id": "C283", "title": "Instances in step become a loop", "statement": "Instances of one generator that are connected in step, that is, each to one index of every array it is connected to by element and all to the same signals otherwise, become one generate loop whose iterations are connected exactly as the instances were.", "quantifier": "any number of instances in any order, ports and signals; the name of the loop must be found and be new", "why_tests_cant": "the indices of the instances may come in any order", "anchors": [["src/transform.cc", "lift_genvar_instances"], ["src/transform.cc", "LiftGenVarInstanceVisitor"]]}
{"id": "C284", "title": "Loops of instances use the same nets", "statement": "Whenever instances become a generate loop, the loop makes as many instances as there were, of the same definition, and each port is connected, over all iterations, to the same nets as often as before.", "quantifier": "every group of instances of one generator for which a loop is made, where no port is connected to an array in one instance and to an element of the same array in another", "why_tests_cant": "the loop is made by sets of indices, not by instances", "anchors": [["src/transform.cc", "LiftGenVarInstanceVisitor"]]}
{"id": "C285", "title": "Loops of instances connect as before", "statement": "Whenever instances become a generate loop, each of them corresponds to one iteration that has the same connections.", "quantifier": "every group of instances of one generator for which a loop is made", "why_tests_cant": "needs two arrays connected in different orders", "anchors": [["src/transform.cc", "LiftGenVarInstanceVisitor"]]}
{"id": "C286", "title": "Elements driven by instances are driven once", "statement": "After instances become a generate loop, an element that an output of an instance drives has one driver.", "quantifier": "every group of instances for which a loop is made, every output that is copied to an element of an array", "why_tests_cant": "the assignments around the instances belong to the question", "anchors": [["src/transform.cc", "LiftGenVarInstanceVisitor"]]}
{"id": "C287", "title": "Outputs may be left open when instances become loops", "statement": "Instances of one generator that leave an output open are kept or become a loop.", "quantifier": "every group of instances with an output that is not connected", "why_tests_cant": "undefined behaviour cannot be observed by a test", "anchors": [["src/transform.cc", "LiftGenVarInstanceVisitor"]]}
{"id": "C288", "title": "Instances that share a constant become a loop", "statement": "Instances that are connected in step and have an input connected to the same constant become a loop or are kept.", "quantifier": "every group of instances in step with a constant", "why_tests_cant": "the error depends on the kind of one connection", "anchors": [["src/transform.cc", "LiftGenVarInstanceVisitor"], ["src/port.cc", "Port::assign_"]]}
{"id": "C289", "title": "A loop of instances is named by what their names share", "statement": "The generate loop is named by the longest beginning that the names of the instances have in common, without the underscores at its end.", "quantifier": "every group of instances whose names have no zero characters, if the name is found", "why_tests_cant": "names of any number and length", "anchors": [["src/transform.cc", "LiftGenVarInstanceVisitor"]]}
{"id": "C290", "title": "Loops of instances without a common name", "statement": "Instances in step whose names have nothing in common become a loop named after their definition.", "quantifier": "every group of instances in step of which the first two names start differently", "why_tests_cant": "undefined behaviour cannot be observed by a test", "anchors": [["src/transform.cc", "LiftGenVarInstanceVisitor"]]}
{"id": "C291", "title": "Handles name the iterations of instances", "statement": "After instances become a generate loop, the handle name of each instance names the iteration that has its connections.", "quantifier": "every group of instances with different names that are in step in the order in which they were made", "why_tests_cant": "the position of every instance must agree with the indices it is connected to", "anchors": [["src/transform.cc", "LiftGenVarInstanceVisitor"], ["src/stmt.cc", "ForStmt::genvar_index"], ["src/generator.cc", "Generator::handle_name"]]}
{"id": "C292", "title": "Handles name iterations in any order", "statement": "After instances that are in step become a generate loop, the handle name of each instance names the iteration that has its connections, whatever the order in which they were made.", "quantifier": "every group of instances in step", "why_tests_cant": "needs instances made in another order than that of the indices", "anchors": [["src/transform.cc", "LiftGenVarInstanceVisitor"], ["src/stmt.cc", "ForStmt::genvar_index"]]}
{"id": "C293", "title": "The name of a loop of instances is new", "statement": "The generate loop does not have the name of a variable of the generator it is in.", "quantifier": "every generator and group of instances in step", "why_tests_cant": "depends on the names of all variables and instances", "anchors": [["src/transform.cc", "LiftGenVarInstanceVisitor"], ["src/generator.cc", "Generator::add_named_block"]]}
{"id": "C294", "title": "Properties are written as built", "statement": "The text of a property is read by the grammar of SystemVerilog in exactly one way and holds, for the instance it is written for, at a tick of an execution exactly if the chain of implications and waits does.", "quantifier": "every chain of any length with waits from lower to higher numbers over signals of one instance, every execution and tick", "why_tests_cant": "executions and chains are unbounded", "anchors": [["src/tb.cc", "Sequence::to_string"], ["src/tb.cc", "Sequence::wait_to_str"]]}
{"id": "C295", "title": "Chains are built in order", "statement": "Implying and waiting, each call on what the last one returned, gives the chain of the signals in the order in which they were implied, each with the last wait given before the next implication.", "quantifier": "every sequence of calls", "why_tests_cant": "sequences of calls of any length", "anchors": [["src/tb.cc", "Sequence::imply"], ["src/tb.cc", "Sequence::wait"]]}
{"id": "C296", "title": "Returned sequences stay usable", "statement": "A sequence that imply returned can be used after imply is called again on the sequence before it.", "quantifier": "every sequence and signals", "why_tests_cant": "the use of a destroyed object cannot be observed reliably by a test", "anchors": [["src/tb.cc", "Sequence::imply"]]}
{"id": "C297", "title": "What is written is a property", "statement": "A wait that is accepted is written as text that SystemVerilog reads as a property.", "quantifier": "all numbers of ticks", "why_tests_cant": "ranges over all pairs of numbers", "anchors": [["src/tb.cc", "Sequence::wait"]]}
{"id": "C298", "title": "Properties get the one clock", "statement": "A property with implications and no edge gets the rising edge of the only clock port of its generator, or, without clock ports, of the only signal of it that is cast to a clock for a child; if there is not exactly one, an error is reported. An edge that was given stays.", "quantifier": "all numbers of clock ports and connections", "why_tests_cant": "the clocks of all children count", "anchors": [["src/transform.cc", "infer_property_clocking"]]}
{"id": "C299", "title": "One clock is one clock", "statement": "A property of a generator with one clock gets that clock also if several children use it.", "quantifier": "any number of children", "why_tests_cant": "the number of uses of the clock varies", "anchors": [["src/transform.cc", "infer_property_clocking"]]}
{"id": "C300", "title": "Properties that wait have a clock", "statement": "A property that waits for a number of ticks gets a clock or is reported.", "quantifier": "every property", "why_tests_cant": "needs a property without implication", "anchors": [["src/transform.cc", "infer_property_clocking"]]}
{"id": "C301", "title": "Properties are about each instance", "statement": "The property in a module is, for each instance of the module, about the signals of that instance.", "quantifier": "every module and pair of its instances", "why_tests_cant": "names are resolved per instance in a hierarchy of any depth", "anchors": [["src/tb.cc", "Sequence::to_string"], ["src/expr.cc", "Var::handle_name"]]}
{"id": "C302", "title": "Properties become statements by name", "statement": "Each property of a generator becomes one assertion, in the order of the names; adding a second property with the same name is an error.", "quantifier": "every sequence of added properties", "why_tests_cant": "order and number of properties vary", "anchors": [["src/generator.cc", "Generator::property"], ["src/transform.cc", "change_property_into_stmt"]]}
{"id": "C303", "title": "Generators with different properties are different modules", "statement": "Two generators that differ only in their properties do not share a module.", "quantifier": "every generator and set of properties", "why_tests_cant": "the passes that decide run in an order given elsewhere", "anchors": [["src/hash.cc", "hash_generators_context"], ["src/transform.cc", "change_property_into_stmt"], ["src/pass.cc", "uniquify_generators"]]}
{"id": "C304", "title": "The failure statement of a value assertion is for failures", "statement": "The statement added to a value assertion for failures is written so that it is run when, and only when, the assertion fails.", "quantifier": "every assertion and statement", "why_tests_cant": "the meaning of the text is given by its grammar", "anchors": [["src/codegen.cc", "SystemVerilogCodeGen::stmt_code"], ["src/debug.cc", "inject_assertion_fail"]]}
{"id": "C305", "title": "The failure statement of a property is for failures", "statement": "The statement added to an assertion of a property for failures is written so that it is run when the property fails.", "quantifier": "every property and statement", "why_tests_cant": "the meaning of the text is given by its grammar", "anchors": [["src/codegen.cc", "SystemVerilogCodeGen::stmt_code"], ["src/debug.cc", "inject_assertion_fail"]]}
{"id": "C306", "title": "Removing assertions and events removes exactly those", "statement": "Taking the assertions, or the events, out of a combinational or sequential block removes every one of them, at any depth, and no other statement, and running the block does the same as before.", "quantifier": "every block and state", "why_tests_cant": "nesting and length of blocks are unbounded", "anchors": [["src/debug.cc", "remove_assertion"], ["src/event.cc", "remove_event_stmts"]]}
{"id": "C307", "title": "Removing assertions and events keeps the behaviour", "statement": "The whole pass, with the removal of empty blocks, succeeds, leaves no assertion (event) in the block, removes the block exactly if it holds nothing else, and keeps the behaviour.", "quantifier": "every combinational or sequential block in which every if holds something else in a branch (in the first, if its condition is wider than one bit) and no arm beside a default holds nothing else", "why_tests_cant": "nesting and length of blocks are unbounded", "anchors": [["src/debug.cc", "remove_assertion"], ["src/event.cc", "remove_event_stmts"], ["src/optimize.cc", "remove_empty_block"]]}
{"id": "C308", "title": "Arms with only assertions or events stay arms", "statement": "Removing assertions or events does not change the behaviour of a block in which an arm of a switch with a default holds only these.", "quantifier": "every block", "why_tests_cant": "needs an arm that holds nothing else beside a default", "anchors": [["src/debug.cc", "remove_assertion"], ["src/optimize.cc", "remove_empty_block"]]}
{"id": "C309", "title": "An if with only an assertion can be removed", "statement": "Removing assertions or events from an if that holds nothing else removes the if.", "quantifier": "every condition and block", "why_tests_cant": "undefined behaviour cannot be observed by a test", "anchors": [["src/debug.cc", "remove_assertion"], ["src/optimize.cc", "remove_empty_block"]]}
{"id": "C310", "title": "No assertion or event is left in any block", "statement": "After assertions (events) are removed, none is left in latch, initial, final and function blocks.", "quantifier": "every kind of block", "why_tests_cant": "ranges over all kinds of blocks and their nesting", "anchors": [["src/debug.cc", "remove_assertion"], ["src/event.cc", "remove_event_stmts"]]}
{"id": "C311", "title": "Only a cast drives a typed port from a variable", "statement": "A clock, reset or clock-enable port accepts, besides ports and constants, only a cast to its own type; these are all accepted when width and sign agree, and a data port accepts everything.", "quantifier": "every port, source and state of the constants", "why_tests_cant": "ranges over all sources and types", "anchors": [["src/port.cc", "Port::assign_"]]}
{"id": "C312", "title": "A clock is driven by a clock", "statement": "What drives a clock port is a clock port, a constant or a cast to a clock.", "quantifier": "every accepted assignment", "why_tests_cant": "ranges over all sources", "anchors": [["src/port.cc", "Port::assign_"]]}
{"id": "C313", "title": "Bits of a typed port are typed", "statement": "Assigning to a bit of a clock or reset port asks for the same cast as assigning to the port.", "quantifier": "every accepted assignment", "why_tests_cant": "ranges over all targets", "anchors": [["src/port.cc", "Port::assign_"], ["src/expr.cc", "Var::assign_"]]}
{"id": "C314", "title": "Enumerations get values of their name", "statement": "An enum variable or port accepts only a variable, port, constant or cast of an enumeration with its name.", "quantifier": "every target and source", "why_tests_cant": "ranges over all sources", "anchors": [["src/expr.cc", "EnumVar::assign_"], ["src/port.cc", "EnumPort::assign_"]]}
{"id": "C315", "title": "Enumerations get their own values", "statement": "An enum variable or port accepts only values of its own enumeration.", "quantifier": "every accepted assignment", "why_tests_cant": "needs two enumerations of one name in two generators", "anchors": [["src/expr.cc", "EnumVar::assign_"]]}
{"id": "C316", "title": "Both sides of an assignment agree", "statement": "An accepted assignment writes the signal under the casts of the target, both sides have the same width and sign, and at most the width of the constant assigned has changed, never a value; a source that is not a constant and differs in width or sign is refused.", "quantifier": "every target, source and state of the constants", "why_tests_cant": "ranges over all widths and nestings", "anchors": [["src/stmt.cc", "AssignStmt::AssignStmt"], ["src/expr.cc", "VarCasted::assign_"]]}
{"id": "C317", "title": "Both sides keep agreeing", "statement": "After any number of accepted assignments, both sides of each of them have the same width and sign.", "quantifier": "every sequence of assignments in which no constant object is used twice", "why_tests_cant": "depends on the whole history", "anchors": [["src/stmt.cc", "AssignStmt::AssignStmt"], ["src/expr.cc", "Const::set_width"]]}
{"id": "C318", "title": "A constant can be used in several assignments", "statement": "After any number of accepted assignments, both sides of each of them have the same width.", "quantifier": "every sequence of assignments", "why_tests_cant": "depends on the whole history", "anchors": [["src/stmt.cc", "AssignStmt::AssignStmt"], ["src/expr.cc", "Const::set_width"]]}
{"id": "C319", "title": "Constants and results are not assigned", "statement": "No accepted assignment writes a constant, alone, in a concatenation or through a part of it, nor the result of an operator.", "quantifier": "every target, source and state of the constants", "why_tests_cant": "ranges over all nestings of targets", "anchors": [["src/expr.cc", "Var::assign_"], ["src/expr.cc", "Const::add_source"]]}
{"id": "C320", "title": "Parts of results are not assigned", "statement": "No accepted assignment writes a part of the result of an operator.", "quantifier": "every accepted assignment", "why_tests_cant": "ranges over all nestings of targets", "anchors": [["src/expr.cc", "Var::assign_"], ["src/expr.cc", "VarSlice::add_source"]]}
{"id": "C321", "title": "Casts read as asked", "statement": "A cast that was asked for reads, after any number of other casts, as the cast to the sign, width or enumeration it was asked for of its variable; a cast to signed of a signed variable is the variable.", "quantifier": "every sequence of casts in which no variable is cast to two enumerations; casts to signs and widths in every sequence", "why_tests_cant": "depends on the whole history", "anchors": [["src/expr.cc", "Var::cast"], ["src/expr.cc", "VarCasted::to_string"], ["kratos/util.py", "cast"]]}
{"id": "C322", "title": "A variable can be cast to two enumerations", "statement": "A cast to an enumeration reads as asked after any number of other casts.", "quantifier": "every sequence of casts", "why_tests_cant": "depends on the whole history", "anchors": [["src/expr.cc", "Var::cast"], ["src/expr.hh", "VarCasted::set_enum_type"]]}
{"id": "C323", "title": "Clocks have one bit", "statement": "A port of the type clock, and what is cast to a clock, has one bit.", "quantifier": "every port and cast", "why_tests_cant": "ranges over all sizes and sequences of calls", "anchors": [["src/port.cc", "Port::Port"], ["src/port.cc", "Port::set_port_type"], ["src/expr.cc", "VarCasted::VarCasted"]]}
{"id": "C324", "title": "A cast of one element has the right width", "statement": "A cast to a sign of a variable that is not an array has the width of the variable, and a cast to a width that width.", "quantifier": "every variable all whose dimensions are one, and every width", "why_tests_cant": "ranges over all widths", "anchors": [["src/expr.cc", "VarCasted::VarCasted"], ["src/expr.cc", "VarCasted::set_target_width"]]}
{"id": "C325", "title": "A cast of an array has the right width", "statement": "A cast to a sign of an array has the width of the array, and a cast to a width that width.", "quantifier": "every array and width", "why_tests_cant": "ranges over all sizes", "anchors": [["src/expr.cc", "VarCasted::VarCasted"], ["src/expr.cc", "VarCasted::set_target_width"]]}
{"id": "C326", "title": "The name of a variable from the top leads to it", "statement": "The hierarchical name of a variable, read as names between dots, is the instances from the top (or from below it) and the name of the variable, so different variables have different names.", "quantifier": "every depth of the hierarchy and every names without dots", "why_tests_cant": "depth and names are unbounded", "anchors": [["src/expr.cc", "Var::handle_name"], ["src/generator.cc", "Generator::handle_name"]]}
{"id": "C327", "title": "The name of a variable from an instance leads to it", "statement": "The name of a variable relative to its instance or one above it, read as names between dots, is the instances from there and the name of the variable.", "quantifier": "every instance above a variable, with names without dots", "why_tests_cant": "depth and names are unbounded", "anchors": [["src/expr.cc", "Var::handle_name"]]}
{"id": "C328", "title": "A variable elsewhere has no name from an instance", "statement": "Asking for the name of a variable relative to an instance that is not above it is refused.", "quantifier": "every instance and variable", "why_tests_cant": "depends on the names of all instances", "anchors": [["src/expr.cc", "Var::handle_name"]]}
{"id": "C329", "title": "Expressions name their variables from the top", "statement": "The hierarchical text of an expression is its text with every variable replaced by its hierarchical name.", "quantifier": "every expression without extensions and repetitions in which the condition of every conditional is a variable", "why_tests_cant": "nesting of expressions is unbounded", "anchors": [["src/expr.cc", "Expr::handle_name"], ["src/expr.cc", "expr_to_string"]]}
{"id": "C330", "title": "Extensions have hierarchical names", "statement": "The hierarchical text of an extended or repeated expression can be asked for.", "quantifier": "every expression", "why_tests_cant": "endless recursion cannot be observed by a test that ends", "anchors": [["src/expr.cc", "Expr::handle_name"], ["src/expr.hh", "VarExtend"]]}
{"id": "C331", "title": "Hierarchical texts tell expressions apart", "statement": "Two conditionals that differ in what is the condition have different hierarchical texts.", "quantifier": "every conditional", "why_tests_cant": "ranges over all expressions", "anchors": [["src/expr.cc", "ConditionalExpr::handle_name"]]}
{"id": "C332", "title": "Expressions name their variables from an instance", "statement": "The text of a concatenation relative to an instance is its text with every variable replaced by its relative name, and so is the text of an operator whose variables are all in that instance.", "quantifier": "every concatenation of variables at or below the instance; every operator over variables of the instance", "why_tests_cant": "nesting of expressions is unbounded", "anchors": [["src/expr.cc", "Expr::handle_name"], ["src/expr.cc", "VarConcat::handle_name"]]}
{"id": "C333", "title": "Operators name variables below an instance", "statement": "The text of every expression relative to an instance is its text with every variable replaced by its relative name.", "quantifier": "every expression over variables at or below the instance", "why_tests_cant": "nesting of expressions is unbounded", "anchors": [["src/expr.cc", "Expr::handle_name"]]}
{"id": "C334", "title": "The drawing of a machine has one circle for each state and all its moves", "statement": "When every move of a machine's states stays in the machine, and its states have different hierarchical names, dot_graph draws exactly one circle for every state of the machine (its own and those of nested machines it can get to), a double circle for exactly the start state, and from every state exactly the arrows it was given, in the order of the next() calls.", "quantifier": "All families of nested machines, all machines in them whose moves do not leave them, all start states.", "why_tests_cant": "A test draws one machine; the traversal must not lose or repeat states for any graph of moves.", "anchors": [["src/fsm.cc", "FSM::dot_graph"], ["src/fsm.cc", "FSM::get_all_child_states"]]}
{"id": "C335", "title": "The drawing of a nested machine has one circle for each state", "statement": "dot_graph of any machine, also of one nested in another whose moves leave it, draws each state once and the arrows of each drawn state once.", "quantifier": "All families of nested machines and all machines in them.", "why_tests_cant": "Repetition depends on how often states outside are reached.", "anchors": [["src/fsm.cc", "FSM::dot_graph"], ["src/fsm.cc", "FSM::get_all_child_states"]]}
{"id": "C336", "title": "Hierarchical names tell the states of a machine apart", "statement": "If the machines have different names, the states of one machine have different names, and no name has an underscore, no two states of an outermost machine have the same handle_name.", "quantifier": "All families of machines, at any depth of nesting.", "why_tests_cant": "Depth of nesting and names are not bounded.", "anchors": [["src/fsm.cc", "FSMState::handle_name"]]}
{"id": "C337", "title": "Hierarchical names tell states apart whatever the names", "statement": "Two states of an outermost machine never have the same handle_name, as long as states of one machine have different names.", "quantifier": "All families of machines.", "why_tests_cant": "A clash needs names chosen for it.", "anchors": [["src/fsm.cc", "FSMState::handle_name"]]}
{"id": "C338", "title": "The moves of a state are the accepted calls of next", "statement": "After any accepted sequence of next() calls, the moves of each state are the calls made on it, in their order; conditions of a state are all different and one bit wide, a move without a condition is never followed by one with a condition, and both ends of a move are in the same outermost machine.", "quantifier": "All sequences of calls on all families of machines.", "why_tests_cant": "The property is about all histories of calls.", "anchors": [["src/fsm.cc", "FSMState::next"]]}
{"id": "C339", "title": "A machine's children are the machines whose parent it is", "statement": "If no machine is added to two machines or twice, then after any sequence of add_child_fsm a machine is a child of exactly the machine that is its parent, the one it was added to.", "quantifier": "All sequences of add_child_fsm in which a machine is added once.", "why_tests_cant": "The property is about all histories of calls.", "anchors": [["src/fsm.cc", "FSM::add_child_fsm"]]}
{"id": "C340", "title": "A machine added to another machine leaves the first one", "statement": "After any sequence of add_child_fsm, every child of a machine has it as its parent.", "quantifier": "All sequences of add_child_fsm.", "why_tests_cant": "The property is about all histories of calls.", "anchors": [["src/fsm.cc", "FSM::add_child_fsm"]]}
{"id": "C341", "title": "Giving a state a move always ends", "statement": "next() ends, by accepting the move or by an exception, whatever machines were added to which.", "quantifier": "All families built by add_child_fsm.", "why_tests_cant": "A test that does not end says nothing about others.", "anchors": [["src/fsm.cc", "FSMState::next"], ["src/fsm.cc", "FSM::add_child_fsm"]]}
{"id": "C342", "title": "States are found by their names", "statement": "A machine accepts a sequence of add_state calls exactly if names are not repeated; then get_state gives for each name the state of that call, and throws for other names.", "quantifier": "All sequences of names.", "why_tests_cant": "The property is about all histories of calls.", "anchors": [["src/fsm.cc", "FSM::add_state"], ["src/fsm.cc", "FSM::get_state"]]}
{"id": "C343", "title": "The table of outputs shows the value of every output in every state", "statement": "output_table has one column for every declared output and one row for every state of the machine, with the value the state gives to that output; there is a table whenever every state gives a value to every output.", "quantifier": "All machines, outputs, values.", "why_tests_cant": "Numbers of states and outputs are not bounded.", "anchors": [["src/fsm.cc", "FSM::output_table"]]}
{"id": "C344", "title": "The table of outputs shows default values", "statement": "There is a table of outputs also when a state leaves an output to its default value.", "quantifier": "All machines with default values for outputs.", "why_tests_cant": "Which outputs are left out varies.", "anchors": [["src/fsm.cc", "FSM::output_table"]]}
{"id": "C345", "title": "Reads of a child's input port in its parent become reads of its source", "statement": "When a child's input port is given one signal of its parent, and the parent reads the port as a whole or inside operators (not hidden in extensions or repeated members of concatenations), port_legality_fix makes every such read a read of the signal, changes nothing else, and the design goes through the same settled states.", "quantifier": "All flat designs, ports, statements of the parent of any nesting, histories of in-range values; the parent's processes that read the port do not change the port or its source before reading on.", "why_tests_cant": "Equivalence over all designs and histories.", "anchors": [["src/transform.cc", "PortLegalityFixVisitor"], ["src/transform.cc", "port_legality_fix"], ["src/expr.cc", "change_var_expr"]]}
{"id": "C346", "title": "Reads of bits of a child's input port are kept", "statement": "port_legality_fix keeps the behaviour also when the parent reads a slice of a child's input port.", "quantifier": "All flat designs with an input port given one signal.", "why_tests_cant": "Equivalence over all designs and histories.", "anchors": [["src/transform.cc", "PortLegalityFixVisitor"]]}
{"id": "C347", "title": "A child's input port as an index on the left is kept", "statement": "port_legality_fix keeps the behaviour also when the parent uses a child's input port as an index on the left of an assignment.", "quantifier": "All flat designs with an input port given one signal.", "why_tests_cant": "Equivalence over all designs and histories.", "anchors": [["src/transform.cc", "PortLegalityFixVisitor"]]}
{"id": "C348", "title": "Reads of a child's input port that is assigned in parts are kept", "statement": "port_legality_fix keeps the behaviour also when the input port is assigned bit by bit from several signals.", "quantifier": "All flat designs.", "why_tests_cant": "Equivalence over all designs and histories.", "anchors": [["src/transform.cc", "PortLegalityFixVisitor"]]}
{"id": "C349", "title": "Reads of a child's input port that is given a constant are accepted", "statement": "port_legality_fix does not throw when the parent reads a child's input port that is given a constant.", "quantifier": "All designs with such a port, whatever else is in them.", "why_tests_cant": "The rest of the design is arbitrary.", "anchors": [["src/transform.cc", "PortLegalityFixVisitor"]]}
{"id": "C350", "title": "The children of a generator are those that have it as parent, under distinct names", "statement": "After any sequence of adding generators that have no parent, and of removing and renaming children, whether or not some of the calls throw, the list of children of a generator has no repetitions, is exactly the generators whose parent it is, and gives their instance names in order, which differ; a child is found by its instance name and by no other; adding with a free name appends, with a taken name throws, renaming to a free name moves the entry, and removing takes just the child.", "quantifier": "all sequences of additions, removals and renamings, all names", "why_tests_cant": "a test runs a few calls; the agreement of the name map, the name order, the parents and the instance names has to hold after every sequence", "anchors": [["src/generator.cc", "Generator::add_child_generator"], ["src/generator.cc", "Generator::remove_child_generator"], ["src/generator.cc", "Generator::rename_child_generator"], ["src/generator.cc", "Generator::get_child_generators"]]}
{"id": "C351", "title": "Adding a child under a name that is taken changes nothing", "statement": "When adding a child throws because the name is taken, every child is still found by its own instance name in its parent.", "quantifier": "all trees and calls", "why_tests_cant": "tests check that the exception is thrown, not what is left behind", "anchors": [["src/generator.cc", "Generator::add_child_generator"]]}
{"id": "C352", "title": "Removing a generator that is not a child changes nothing", "statement": "Removing a generator from one that is not its parent leaves all children of that one in place.", "quantifier": "all trees, all pairs of generators", "why_tests_cant": "it needs two generators of the same name under different parents, which tests do not make", "anchors": [["src/generator.cc", "Generator::remove_child_generator"]]}
{"id": "C353", "title": "A generator has one parent", "statement": "After a generator is added to a second parent, it is among the children of that parent only.", "quantifier": "all trees and calls", "why_tests_cant": "tests add each generator once", "anchors": [["src/generator.cc", "Generator::add_child_generator"], ["src/generator.cc", "Generator::get_child_generators"]]}
{"id": "C354", "title": "Removing a child removes exactly its wires", "statement": "When assignments go into the input ports of a child and out of its output ports only, removing the child removes exactly those assignments that mention one of its ports and keeps the others in order.", "quantifier": "all children with any number of ports, all assignments between whole signals", "why_tests_cant": "tests remove a child with one or two ports", "anchors": [["src/generator.cc", "Generator::remove_child_generator"]]}
{"id": "C355", "title": "No assignment mentions a child that was removed", "statement": "After a child is removed no assignment of its parent mentions one of its ports, whatever the directions of the ports and uses.", "quantifier": "all children, ports, and assignments", "why_tests_cant": "tests use inputs as destinations and outputs as sources", "anchors": [["src/generator.cc", "Generator::remove_child_generator"]]}
{"id": "C356", "title": "Replacing a child rewires all its ports", "statement": "When a replacement of a child by a generator without parent returns, the new child has the ports of the old one with the same directions, widths, sizes, signedness and kinds, every assignment is the old one with the new child's ports in the place of the old one's, the old child has no parent, the new one is the child under that name, and the other children are unaffected.", "quantifier": "all trees, children, numbers of ports and assignments", "why_tests_cant": "tests replace a child with a few ports in one design", "anchors": [["src/generator.cc", "Generator::replace"], ["src/expr.cc", "Var::move_src_to"], ["src/expr.cc", "Var::move_sink_to"]]}
{"id": "C357", "title": "A replacement that throws changes no assignment", "statement": "When a replacement of a child throws because a port is missing or differs, the assignments of the parent are as before.", "quantifier": "all trees, children and assignments", "why_tests_cant": "tests check that the exception is thrown, not what is left behind", "anchors": [["src/generator.cc", "Generator::replace"], ["src/expr.cc", "Var::move_src_to"], ["src/expr.cc", "Var::move_sink_to"]]}
{"id": "C358", "title": "A replacement keeps the place of the child", "statement": "A child that replaces another takes its place in the order of the children.", "quantifier": "all trees and replacements", "why_tests_cant": "tests replace an only child", "anchors": [["src/generator.cc", "Generator::replace"]]}
{"id": "C359", "title": "Each packed struct in use gets one typedef, after those of its fields", "statement": "When structs of the same name are the same, collecting the packed structs of a design returns, and whatever the iteration order of the unordered containers every struct of a variable that is not external and every struct inside it gets exactly one typedef, no other struct does, and the typedef of a struct comes after the typedefs of the structs of its fields.", "quantifier": "all finite nestings of structs, all lists of variables, all orders of hash containers", "why_tests_cant": "the order of hash containers differs between builds and runs, and the depth of nesting is unbounded", "anchors": [["src/analysis.cc", "PortPackedVisitor"], ["src/graph.cc", "PackedStructGraph::get_structs"], ["src/graph.cc", "topological_sort_helper"], ["src/analysis.cc", "extract_struct_info"]]}
{"id": "C360", "title": "A struct that is declared elsewhere gets no typedef", "statement": "No typedef is written for a struct that is marked as external.", "quantifier": "all designs", "why_tests_cant": "tests use external structs as the struct of a variable", "anchors": [["src/analysis.cc", "PortPackedVisitor"], ["src/graph.cc", "PackedStructGraph::get_structs"], ["src/graph.cc", "topological_sort_helper"], ["src/analysis.cc", "extract_struct_info"]]}
{"id": "C361", "title": "In an accepted design typedefs come after those they use", "statement": "When collecting the packed structs does not throw, the typedef of a struct comes after typedefs of all names it mentions, for every order of the hash containers.", "quantifier": "all designs that are accepted, all orders of hash containers", "why_tests_cant": "it takes two structs with the same name and different nested structs, and a particular hash order", "anchors": [["src/analysis.cc", "PortPackedVisitor"], ["src/graph.cc", "PackedStructGraph::get_structs"], ["src/graph.cc", "topological_sort_helper"], ["src/analysis.cc", "extract_struct_info"]]}
{"id": "C362", "title": "Port bundles that are merged into one struct agree in widths and signedness", "statement": "When bundles with the same definition name and the same field names are accepted, and the hash does not send two of their texts to one number, the ports of equal fields have equal widths and signedness; bundles that agree are accepted.", "quantifier": "all numbers of fields, all widths and names, all lists of bundles", "why_tests_cant": "the comparison is of hashes of texts in which numbers and names follow each other without separators", "anchors": [["src/transform.cc", "PortBundleVisitor"], ["src/transform.cc", "merge_bundle_mapping"], ["src/transform.cc", "change_port_bundle_struct"]]}
{"id": "C363", "title": "Port bundles of one name with different fields are rejected", "statement": "Bundles with the same definition name that are accepted have the same fields.", "quantifier": "all bundles", "why_tests_cant": "the text that is hashed is ambiguous only for particular names and widths", "anchors": [["src/transform.cc", "PortBundleVisitor"], ["src/transform.cc", "merge_bundle_mapping"], ["src/transform.cc", "change_port_bundle_struct"]]}
{"id": "C364", "title": "Converting bundles to packed structs rewires every port", "statement": "When bundles with the same fields are accepted, their names are free, and statements drive inputs from the parent and outputs from inside, the conversion returns, every statement is the old one with the field of the packed port in the place of each port of the bundles, those ports are gone, and the other ports stay.", "quantifier": "all lists of bundles in any generators, all numbers of fields and statements between whole signals", "why_tests_cant": "tests convert one or two bundles with a few statements", "anchors": [["src/transform.cc", "PortBundleVisitor"], ["src/transform.cc", "merge_bundle_mapping"], ["src/transform.cc", "change_port_bundle_struct"]]}
{"id": "C365", "title": "No statement mentions a port that was removed by the conversion of bundles", "statement": "After bundles were converted to packed structs no statement reads a port that was removed.", "quantifier": "all bundles and statements", "why_tests_cant": "tests do not read outputs inside the generator that drives them", "anchors": [["src/transform.cc", "PortBundleVisitor"], ["src/transform.cc", "merge_bundle_mapping"], ["src/transform.cc", "change_port_bundle_struct"], ["src/expr.cc", "Var::move_sink_to"]]}
{"id": "C366", "title": "Setting an array in the simulator stores the given values and wakes up readers of exactly the changed bits", "statement": "After the simulator is given a value for every element of an array whose elements have at most 32 bits, reading the array gives these values. The bits reported as changed are exactly those in which the old and the new element differ, at the place of the element in the array. They are all bits if the array had no value.", "quantifier": "every array with 1 to 32 bits per element and less than 2^32 bits, every old value or none, every list of new values as long as the array", "why_tests_cant": "one needs every old and new value, every shape and every bit position", "anchors": [["src/sim.cc", "Simulator::set_complex_value_"], ["src/sim.cc", "Simulator::get_array"], ["src/sim.cc", "Simulator::set"]]}
{"id": "C367", "title": "Arrays of any element width can be set in the simulator", "statement": "Setting an array to a value that differs from the one it has works whatever the width of its elements.", "quantifier": "every array, every pair of values", "why_tests_cant": "a tester picks narrow elements; undefined shifts often look right on one machine", "anchors": [["src/sim.cc", "Simulator::set_complex_value_"], ["src/sim.cc", "Simulator::get_array"], ["src/sim.cc", "Simulator::set"]]}
{"id": "C368", "title": "One number given to a packed array is cut into its elements", "statement": "Setting a packed array of at most 64 bits to one number gives element i the bits of the number from i times the element width.", "quantifier": "every packed array of more than one element with elements of 1 to 32 bits and at most 64 bits in all, every 64-bit number", "why_tests_cant": "one needs every number and every shape", "anchors": [["src/sim.cc", "Simulator::set_complex_value_"], ["src/sim.cc", "Simulator::get_array"], ["src/sim.cc", "Simulator::set"]]}
{"id": "C369", "title": "One number can be given to a packed array of any size", "statement": "Setting a packed array to one number that fits works whatever the size of the array: the elements beyond the number are zero.", "quantifier": "every packed array, every number", "why_tests_cant": "undefined shifts often look right on one machine", "anchors": [["src/sim.cc", "Simulator::set_complex_value_"], ["src/sim.cc", "Simulator::get_array"], ["src/sim.cc", "Simulator::set"]]}
{"id": "C370", "title": "A call to set an array that throws changes nothing", "statement": "If the simulator rejects the values given for an array, the array reads as before.", "quantifier": "every array, every list of values that is rejected", "why_tests_cant": "a test of the exception does not look at the value afterwards", "anchors": [["src/sim.cc", "Simulator::set_complex_value_"], ["src/sim.cc", "Simulator::get_array"], ["src/sim.cc", "Simulator::set"]]}
{"id": "C371", "title": "A part of an array can be read in the simulator", "statement": "If an array has a value, the simulator gives the values of an aligned part of it.", "quantifier": "every array with a value, every aligned range of its elements", "why_tests_cant": "no test reads a part of an array; reading beyond the vector may seem to work", "anchors": [["src/sim.cc", "Simulator::get_complex_value_"]]}
{"id": "C372", "title": "A part of an array can be assigned in the simulator", "statement": "A list of values as long as an aligned part of an array can be assigned to it.", "quantifier": "every array, every aligned part, every list of values of its length", "why_tests_cant": "the tests assign only single elements", "anchors": [["src/sim.cc", "Simulator::set_complex_value_"], ["src/sim.cc", "Simulator::get_array"], ["src/sim.cc", "Simulator::set"]]}
{"id": "C373", "title": "The values stored for an array fit its element width", "statement": "After an array was set, no element has bits beyond its width.", "quantifier": "every array, every list of values", "why_tests_cant": "a tester gives values that fit", "anchors": [["src/sim.cc", "Simulator::set_complex_value_"], ["src/sim.cc", "Simulator::get_array"], ["src/sim.cc", "Simulator::set"]]}
{"id": "C374", "title": "Signed numbers are stored in two's complement", "statement": "Giving the simulator a signed number for a variable of 1 to 64 bits stores the number modulo two to the width.", "quantifier": "every width from 1 to 64, every 64-bit signed number", "why_tests_cant": "one needs every width and number", "anchors": [["src/sim.cc", "Simulator::set_i"]]}
{"id": "C375", "title": "Signed numbers can be given for an array", "statement": "Giving the simulator a list of signed numbers for an array stores each in two's complement.", "quantifier": "every array, every list of signed numbers", "why_tests_cant": "the overload is not called by any test", "anchors": [["src/sim.cc", "Simulator::set_i"]]}
{"id": "C376", "title": "A pass is shown every node of the design once", "statement": "A visitor that walks from a node and changes nothing is shown this node first and then every node below it, each exactly once even if it is shared.", "quantifier": "every finite IR, with any sharing, every starting node, every depth", "why_tests_cant": "one needs every shape of IR and every sharing of nodes", "anchors": [["src/ir.cc", "IRVisitor::visit_root"], ["src/ir.hh", "IRVisitor"]]}
{"id": "C377", "title": "A design that passes the synthesis check has no content without hardware meaning where passes look", "statement": "If the synthesis check accepts a design, no node reached from the top is a delayed assignment, an initial block, an event, a general purpose always block, a call of a DPI function, or a call of a system function that cannot be synthesised.", "quantifier": "every finite IR, every top", "why_tests_cant": "one needs every nesting of statements, expressions and generators", "anchors": [["src/analysis.cc", "check_non_synthesizable_content"], ["src/analysis.cc", "SynthesizableVisitor"], ["src/syntax.cc", "get_builtin_function_info"]]}
{"id": "C378", "title": "The synthesis check rejects only what cannot be synthesised", "statement": "A design whose only system functions can be synthesised, such as $clog2 of a signal, passes the synthesis check.", "quantifier": "every design with a system function in an expression", "why_tests_cant": "the tests only use $display", "anchors": [["src/analysis.cc", "check_non_synthesizable_content"], ["src/analysis.cc", "SynthesizableVisitor"], ["src/syntax.cc", "get_builtin_function_info"]]}
{"id": "C379", "title": "The synthesis check finds final blocks", "statement": "A design with a final block is rejected by the synthesis check.", "quantifier": "every design", "why_tests_cant": "no test has a final block in it", "anchors": [["src/analysis.cc", "check_non_synthesizable_content"], ["src/analysis.cc", "SynthesizableVisitor"], ["src/syntax.cc", "get_builtin_function_info"]]}
{"id": "C380", "title": "The synthesis check looks into every expression", "statement": "A call of a DPI function is rejected by the synthesis check wherever it is: also in a returned value, an argument, the operand of a cast or an index.", "quantifier": "every design, every place of the call", "why_tests_cant": "the places where it is not found have to be thought of", "anchors": [["src/analysis.cc", "check_non_synthesizable_content"], ["src/analysis.cc", "SynthesizableVisitor"], ["src/syntax.cc", "get_builtin_function_info"]]}
{"id": "C381", "title": "The flip-flop check accepts a clocked block only if an if is alone in it", "statement": "The flip-flop check rejects a clocked block exactly if one of its statements is an if and there is another statement.", "quantifier": "every list of statements of a clocked block", "why_tests_cant": "one needs every number and order of statements", "anchors": [["src/analysis.cc", "check_flip_flop_always_ff"]]}
{"id": "C382", "title": "Two different packed structs of one name are rejected", "statement": "If two variables of a design have packed structs of one name, without structs inside, that differ in a field, its width or its sign, or in the order or number of fields, collecting the structs throws.", "quantifier": "every list of variables, every two flat structs of one name, in any order and with any others between them", "why_tests_cant": "one needs every pair of structs", "anchors": [["src/analysis.cc", "extract_struct_info"], ["src/expr.cc", "PackedStruct::same"]]}
{"id": "C383", "title": "Two different packed structs of one name are rejected even if there are structs inside", "statement": "If two variables of a design have packed structs of one name with different fields, collecting the structs throws.", "quantifier": "every list of variables, every two structs of one name", "why_tests_cant": "a tester compares flat structs", "anchors": [["src/analysis.cc", "extract_struct_info"], ["src/expr.cc", "PackedStruct::same"]]}
{"id": "C384", "title": "An index that is a variable may have as many bits as are needed, and selects one of equal parts", "statement": "A variable without parameters of n elements, or of n bits if it is not an array, accepts an index of one bit, and one of w bits if 2^(w-1) is less than n; it rejects all others. The selected part has the width of the variable divided by n.", "quantifier": "every shape of variable without parameters, every width of the index", "why_tests_cant": "one needs every size and width", "anchors": [["src/expr.cc", "VarVarSlice"], ["src/expr.hh", "VarVarSlice"]]}
{"id": "C385", "title": "Every value of an accepted index is in range", "statement": "If a variable accepts an index, every value of the index selects one of its elements.", "quantifier": "every variable, every accepted index", "why_tests_cant": "the tests have sizes that are powers of two", "anchors": [["src/expr.cc", "VarVarSlice"], ["src/expr.hh", "VarVarSlice"]]}
{"id": "C386", "title": "An accepted index can select every element", "statement": "If a variable accepts an index, every element is selected by some value of the index.", "quantifier": "every variable, every accepted index", "why_tests_cant": "the tests use indices of exactly the right width", "anchors": [["src/expr.cc", "VarVarSlice"], ["src/expr.hh", "VarVarSlice"]]}
{"id": "C387", "title": "A width parameter does not change which indices are accepted", "statement": "A variable whose width is given by a parameter accepts the same indices as one whose width is the value of the parameter.", "quantifier": "every variable with a width parameter, every index", "why_tests_cant": "the tests index parametrised variables only with fitting indices", "anchors": [["src/expr.cc", "VarVarSlice"], ["src/expr.hh", "VarVarSlice"]]}
{"id": "C388", "title": "Statements are in the block they were added to, once and in order, and know it", "statement": "After any history of adding statements that are in no block, of the kind the block allows, and of removing statements from their parents, every block has exactly the statements added and not removed, in the order they were added and none twice, and each of them has the block as its parent.", "quantifier": "every history of such calls, on assignments, ifs and blocks of any nesting without loops, in which nothing is put inside itself", "why_tests_cant": "one needs every history and every nesting", "anchors": [["src/stmt.cc", "StmtBlock::add_stmt"], ["src/stmt.cc", "Stmt::remove_from_parent"], ["src/stmt.cc", "StmtBlock::set_parent"]]}
{"id": "C389", "title": "The statement before another one is the one before it in its block", "statement": "Asked for the statement before it, a statement in a block gives the one just before it in the block, and none if it is the first.", "quantifier": "every block built as above, every statement in it", "why_tests_cant": "one needs every block and position", "anchors": [["src/stmt.cc", "Stmt::pre_stmt"]]}
{"id": "C390", "title": "A statement added to a second block leaves the first", "statement": "If a statement of one block is added to another block, it is in the second one only.", "quantifier": "every statement in a block, every other block that accepts it", "why_tests_cant": "no test adds a statement twice", "anchors": [["src/stmt.cc", "StmtBlock::add_stmt"], ["src/stmt.cc", "Stmt::remove_from_parent"], ["src/stmt.cc", "StmtBlock::set_parent"]]}
{"id": "C391", "title": "A statement in a loop can be removed from its parent", "statement": "Removing a statement of a loop from its parent takes it out of the loop.", "quantifier": "every loop in a block, every statement in it", "why_tests_cant": "the tests remove statements from blocks and ifs only", "anchors": [["src/stmt.cc", "ForStmt::set_parent"], ["src/stmt.cc", "Stmt::remove_from_parent"]]}
{"id": "C392", "title": "Replacing a statement of a block keeps the block well-formed", "statement": "If a statement of a block is replaced by another one, the block has no statement twice and no block in it.", "quantifier": "every block, every position, every statement", "why_tests_cant": "the tests replace statements by new ones", "anchors": [["src/stmt.cc", "StmtBlock::set_child"]]}
{"id": "C393", "title": "A scope variable can be overridden", "statement": "Adding a scope variable with the override option gives the variable the new value.", "quantifier": "every statement, every name, every value", "why_tests_cant": "the option is used only with new names", "anchors": [["src/stmt.cc", "Stmt::add_scope_variable"]]}
{"id": "C394", "title": "Cloning a block does not change the original", "statement": "After a block is cloned, its statements have the parents they had.", "quantifier": "every block, every statement in it", "why_tests_cant": "the tests clone assignments only", "anchors": [["src/stmt.cc", "StmtBlock::clone_block"], ["src/stmt.cc", "Stmt::clone"]]}
{"id": "C395", "title": "An if cannot be put in its own body", "statement": "Adding an if to its own then block throws.", "quantifier": "every if", "why_tests_cant": "a tester does not think of it; the endless recursion comes later", "anchors": [["src/stmt.cc", "StmtBlock::add_stmt"], ["src/stmt.cc", "Stmt::remove_from_parent"], ["src/stmt.cc", "StmtBlock::set_parent"]]}
{"id": "C396", "title": "Scope variables given to statements", "statement": "After the scope variables have been propagated, every statement is still there, keeps the variables it had, and for every other name has the value of the outermost if or switch around it that defines it and is not cut off by a loop; nothing else is added.", "quantifier": "all trees of statements and their scope variables, all paths to a statement, all names", "why_tests_cant": "the nesting of statements is unbounded", "anchors": [["src/debug.cc", "propagate_scope_variable"], ["src/stmt.cc", "Stmt::add_scope_variable"]]}
{"id": "C397", "title": "A statement sees the innermost definition", "statement": "After the scope variables have been propagated, every statement has, for every name, the value of the innermost if or switch around it that defines the name.", "quantifier": "all trees of statements, paths and names", "why_tests_cant": "all nestings of definitions", "anchors": [["src/debug.cc", "propagate_scope_variable"]]}
{"id": "C398", "title": "Scope variables reach statements in loops", "statement": "After the scope variables have been propagated, a statement inside a loop has the variables of the ifs around that loop.", "quantifier": "all trees of statements, paths and names", "why_tests_cant": "all nestings", "anchors": [["src/stmt.cc", "Stmt::add_scope_variable"], ["src/debug.cc", "propagate_scope_variable"]]}
{"id": "C399", "title": "Overriding a scope variable in nested statements", "statement": "Adding a scope variable with override set to a statement that contains others gives the statement and what it contains the new value, whatever they had before.", "quantifier": "all statements, names and values", "why_tests_cant": "all previous contexts", "anchors": [["src/stmt.cc", "Stmt::add_scope_variable"]]}
{"id": "C400", "title": "Drivers that are listed", "statement": "Every variable that is listed as a driver of a variable is used in an assignment to it, and every variable that is an operand of such an assignment is listed.", "quantifier": "all lists of assignments to a variable with arbitrary right sides", "why_tests_cant": "all expressions", "anchors": [["src/debug.cc", "find_driver_signal"]]}
{"id": "C401", "title": "All drivers are listed", "statement": "Every variable or port that is used in an assignment to a variable is listed as a driver of it.", "quantifier": "all lists of assignments to a variable with arbitrary right sides", "why_tests_cant": "all expressions", "anchors": [["src/debug.cc", "find_driver_signal"]]}
{"id": "C402", "title": "Reading the target of an SSA attribute", "statement": "An attribute ssa=SCOPE:VARIABLE is read as that scope and that variable, if the variable's name has no colon and the mark does not occur again.", "quantifier": "all scopes and variable names of any length", "why_tests_cant": "all texts", "anchors": [["src/debug.cc", "get_target_var_name"]]}
{"id": "C403", "title": "The target of an SSA attribute is a name", "statement": "The variable that is read from an SSA attribute never is the text of the attribute itself.", "quantifier": "all texts of attributes", "why_tests_cant": "all texts", "anchors": [["src/debug.cc", "get_target_var_name"]]}
{"id": "C404", "title": "Mock hierarchy", "statement": "If the parts of a top-level instance name are new and different, mocking the hierarchy puts the generator below generators of these names in this order, the first one replaced by the name given for the top, and leaves all other generators as they were.", "quantifier": "all contexts, all instance names with any number of parts, all names for the top", "why_tests_cant": "any depth of the hierarchy", "anchors": [["src/debug.cc", "mock_hierarchy"]]}
{"id": "C405", "title": "Mocking a hierarchy always gives one", "statement": "For every instance name, mocking the hierarchy leaves the generator with a path from a top.", "quantifier": "all contexts and instance names", "why_tests_cant": "all repetitions of names", "anchors": [["src/debug.cc", "mock_hierarchy"]]}
{"id": "C406", "title": "Context of assignments in SSA form", "statement": "After the context of SSA assignments has been fixed, every assignment keeps its target and the names in its context; a name that is a variable and has been assigned to before stands for what was last assigned, and all others stand for what they did.", "quantifier": "all sequences of assignments of an SSA block with any scopes and contexts", "why_tests_cant": "blocks of any length", "anchors": [["src/debug.cc", "ssa_transform_fix"]]}
{"id": "C407", "title": "Branches do not see each other", "statement": "After the context of SSA assignments has been fixed, no assignment has a variable in its context that was assigned in a scope that it is not in.", "quantifier": "all sequences of assignments and all scope structures", "why_tests_cant": "all nestings of branches", "anchors": [["src/debug.cc", "ssa_transform_fix"]]}
{"id": "C408", "title": "When the scopes of a design can be saved", "statement": "Saving the scopes of a top-level statement succeeds exactly if every recorded statement in it (assignments, ifs, switches, calls, scoped, combinational and sequential blocks that are not marked to be ignored) that is inside another statement is directly in a recorded one.", "quantifier": "all trees of statements", "why_tests_cant": "nesting is unbounded", "anchors": [["src/debug.cc", "StmtScopeVisitor"], ["src/debug.cc", "DebugDatabase::save_database"]]}
{"id": "C409", "title": "Saving the debug database never fails", "statement": "The debug database of every design can be saved, whichever statements it has.", "quantifier": "all trees of statements", "why_tests_cant": "all combinations of statements", "anchors": [["src/debug.cc", "StmtScopeVisitor"], ["src/stmt.hh", "LatchStmtBlock"]]}
{"id": "C410", "title": "Source of a line of the generated code", "statement": "For a generator with a known source, line 1 is mapped to it, line 0 to nothing, and every other line to the source of the first visited node on that line whose source is known, or to nothing.", "quantifier": "all sequences of nodes with any lines and sources", "why_tests_cant": "designs of any size", "anchors": [["src/debug.cc", "extract_debug_info"]]}
{"id": "C411", "title": "All known sources are in the mapping", "statement": "Every line on which there is a node with a known source has an entry in the mapping of the generator.", "quantifier": "all sequences of nodes, all generators", "why_tests_cant": "designs of any size", "anchors": [["src/debug.cc", "extract_debug_info"]]}
{"id": "C412", "title": "Clones of generators", "statement": "A clone of a generator has its parameters and, in the same order, its ports with the same names, directions, sizes, types, signs and packing, and the same width for every port whose width is not a parameter of the generator; parametrised ports are parametrised by the same name.", "quantifier": "all generators with any parameters and ports", "why_tests_cant": "all port lists", "anchors": [["src/generator.cc", "Generator::clone"]]}
{"id": "C413", "title": "Widths of the ports of a clone", "statement": "All ports of a clone are as wide as those of the original.", "quantifier": "all generators", "why_tests_cant": "all port lists and parameter values", "anchors": [["src/generator.cc", "Generator::clone"], ["src/expr.cc", "Param::Param"]]}
{"id": "C414", "title": "Arrays of one element in clones", "statement": "A port that is an explicit array is one in the clone.", "quantifier": "all generators", "why_tests_cant": "all port lists", "anchors": [["src/generator.cc", "Generator::clone"]]}
{"id": "C415", "title": "Copying missing ports", "statement": "Copying the missing ports of another generator keeps all ports there are, adds only ports whose names are new, and gives every port of the other generator a counterpart of the same direction, size, type and sign, whose width is that of the parameter of the same name where there is one.", "quantifier": "all pairs of generators", "why_tests_cant": "all port lists", "anchors": [["src/generator.cc", "Generator::copy_over_missing_ports"]]}
{"id": "C416", "title": "Unwiring", "statement": "Unwiring two variables removes the first assignment between them in the generator, whichever direction it has, keeps all other statements in order, and undoes one wiring of variables that were not connected before.", "quantifier": "all lists of statements and all pairs of variables", "why_tests_cant": "all statement lists", "anchors": [["src/generator.cc", "Generator::unwire"], ["src/generator.cc", "Generator::wire"]]}
{"id": "C417", "title": "Unwired variables are not connected", "statement": "After two variables have been unwired there is no assignment between them.", "quantifier": "all lists of statements and all pairs of variables", "why_tests_cant": "all statement lists", "anchors": [["src/generator.cc", "Generator::unwire"]]}
{"id": "C418", "title": "Moving line numbers", "statement": "If no statement is at two places, moving the line numbers of a generator in debug mode moves the line of every statement inside another one once by the offset and changes no other statement; if a statement is at two places it is rejected; a generator that is not in debug mode is not changed.", "quantifier": "all finite nestings of statements, all line numbers and offsets", "why_tests_cant": "nesting of any depth", "anchors": [["src/codegen.cc", "fix_verilog_ln"], ["src/graph.cc", "StatementGraph"]]}
{"id": "C419", "title": "Moving line numbers of top-level statements", "statement": "Moving the line numbers of a generator in debug mode moves the lines of all its statements.", "quantifier": "all finite nestings of statements", "why_tests_cant": "nesting of any depth", "anchors": [["src/codegen.cc", "fix_verilog_ln"], ["src/graph.cc", "StatementGraph"]]}
{"id": "C420", "title": "A copied width or size has the value of the original", "statement": "When the parametrised width or size of a variable is copied to a variable of another generator, the copied expression has the value the original has, it names only parameters of the other generator, and each of those is one that a parameter of the original is set from. With the check it is refused exactly when a parameter is not set from one of the other generator.", "quantifier": "every expression of parameters, constants and operators, every meaning of the operators, every set of parameters where each has the value of the one it is set from, with and without the check", "why_tests_cant": "Expressions nest without bound and any operator may be in them.", "anchors": [["src/expr.cc", "copy_var_const_parm"], ["src/expr.cc", "check_parent_param"]]}
{"id": "C421", "title": "A copied width follows the parameter it was written with", "statement": "When a parametrised width is copied to another generator without the check, the copy still has the value of the original after the parameters have been changed.", "quantifier": "every expression, every set of parameters and every later value of them", "why_tests_cant": "The values given later are not known when the copy is made.", "anchors": [["src/expr.cc", "copy_var_const_parm"]]}
{"id": "C422", "title": "A copied ternary keeps its value", "statement": "Copying a parametrised width that contains a ternary to another generator gives an expression of the same value.", "quantifier": "every expression and every set of parameters", "why_tests_cant": "The condition decides, and it may have any value.", "anchors": [["src/expr.cc", "copy_var_const_parm"], ["src/generator.cc", "Generator::expr"]]}
{"id": "C423", "title": "Copying the parametrisation of a variable ties width and sizes", "statement": "After the parametrisation of one variable is copied to another, the width of the other and each of its sizes are tied to a copy of the expression the first has there and have its value; a width or size that is not parametrised in the first is left as it was.", "quantifier": "every two variables with any number of dimensions, each parametrised or not, every set of parameters, and every evaluation of expressions", "why_tests_cant": "Any subset of the dimensions may be parametrised.", "anchors": [["src/expr.cc", "Var::copy_meta_data"], ["src/expr.cc", "Var::set_size_param"]]}
{"id": "C424", "title": "A variable made from another takes over its parametrisation", "statement": "A variable declared from another one (generator.var(other, name)) is tied to a parameter where the other is.", "quantifier": "every variable, generator and set of parameters", "why_tests_cant": "The parametrisation may be any expression.", "anchors": [["src/generator.cc", "Generator::var"]]}
{"id": "C425", "title": "Exchanging a variable takes its slices and casts along", "statement": "When a variable that is in no concatenation is exchanged for one of its width and sign, each of its slices becomes a slice of the new variable and each of its casts a cast of the root of the new variable, it keeps none, and no other object changes what it was taken of, its width or its sign. If width or sign differ it is refused.", "quantifier": "every state of the objects in which slices and casts of a variable are objects of their own, every two variables and any number of slices and casts", "why_tests_cant": "Any number of slices and casts may have been taken, in any order.", "anchors": [["src/expr.cc", "Var::move_linked_to"]]}
{"id": "C426", "title": "A variable that takes over another's slices keeps its own", "statement": "When a variable is exchanged for another one, the slices that were taken of the new variable before are still among its slices.", "quantifier": "every state of the objects and every two variables", "why_tests_cant": "The new variable may have been used in any way before.", "anchors": [["src/expr.cc", "Var::move_linked_to"]]}
{"id": "C427", "title": "A variable that is part of a concatenation can be exchanged", "statement": "A variable can be exchanged for another one of its width and sign, also when it is part of a concatenation.", "quantifier": "every state of the objects and every two variables", "why_tests_cant": "Any number of concatenations may contain the variable.", "anchors": [["src/expr.cc", "Var::move_linked_to"], ["src/expr.cc", "VarConcat::replace_var"]]}
{"id": "C428", "title": "A switch has one block for each value, with everything added under it", "statement": "However cases are added to a switch statement, and whichever constant objects are used, it has exactly one block for each value (and one for the default, if given) and that block holds all statements added under the value, in the order they were added.", "quantifier": "every sequence of additions, with any constants, and any assignment of values to the constants", "why_tests_cant": "Any number of cases may be added in any order, with repeated values.", "anchors": [["src/stmt.cc", "SwitchStmt::add_switch_case"]]}
{"id": "C429", "title": "The blocks of a switch are visited in an order fixed by the values", "statement": "Visiting the children of a switch statement gives the blocks of the values that are not negative in ascending order, then those of the negative values in ascending order, then the default, whatever the addresses of the constants are.", "quantifier": "every switch statement with distinct 64-bit case values that does not have both a case -1 and a default, and every order of the constants in memory", "why_tests_cant": "The order in memory changes from run to run.", "anchors": [["src/stmt.cc", "SwitchStmt::get_child"]]}
{"id": "C430", "title": "The order of the blocks of a switch never depends on memory", "statement": "The order in which the blocks of a switch statement are visited is decided by the values of the cases.", "quantifier": "every switch statement with distinct 64-bit case values", "why_tests_cant": "The order in memory changes from run to run.", "anchors": [["src/stmt.cc", "SwitchStmt::get_child"]]}
{"id": "C431", "title": "A case can be removed by its value", "statement": "After remove_switch_case with a constant, the switch statement has no case of that constant's value.", "quantifier": "every switch statement and every constant", "why_tests_cant": "Any number of constants may have the same value.", "anchors": [["src/stmt.cc", "SwitchStmt::remove_switch_case"]]}
{"id": "C432", "title": "Several statements can be added to any case at once", "statement": "Adding a list of statements under a constant succeeds and gives the block of that value.", "quantifier": "every switch statement, constant and list of statements", "why_tests_cant": "The case may be there already, added with any constant.", "anchors": [["src/stmt.cc", "SwitchStmt::add_switch_case"]]}
{"id": "C433", "title": "Removing a statement from a switch removes it and nothing else", "statement": "After a statement is removed from a switch statement, no block holds it, and each block holds its other statements in their order.", "quantifier": "every switch statement made by adding cases in which no block holds a statement twice, and every statement", "why_tests_cant": "Any number of blocks may hold the statement.", "anchors": [["src/stmt.cc", "SwitchStmt::remove_stmt"]]}
{"id": "C434", "title": "Raw text is kept line by line", "statement": "A raw statement made from lines of text, each ended by any combination of carriage returns and newlines, holds exactly these lines in order; the same if the lines are given one by one; and a clone of a raw statement holds the same lines.", "quantifier": "every list of non-empty lines and of line ends, and for clones every text", "why_tests_cant": "Text of any length, with any kind of line end.", "anchors": [["src/stmt.cc", "RawStringStmt::RawStringStmt"], ["src/stmt.cc", "RawStringStmt::clone"]]}
{"id": "C435", "title": "Raw text keeps its blank lines", "statement": "A raw statement made from a list of lines holds these lines, blank ones included.", "quantifier": "every list of lines without carriage returns and newlines", "why_tests_cant": "Blank lines may be anywhere.", "anchors": [["src/stmt.cc", "RawStringStmt::RawStringStmt"]]}
{"id": "C436", "title": "A comment keeps its words", "statement": "A comment made from text without newlines has the words of the text in their order, wrapped into lines.", "quantifier": "every text without newlines that has a word, and every line width", "why_tests_cant": "Text of any length.", "anchors": [["src/stmt.cc", "CommentStmt::CommentStmt"], ["src/util.cc", "line_wrap"]]}
{"id": "C437", "title": "A comment of several lines keeps its words", "statement": "A comment has the words of its text in their order, wrapped into lines.", "quantifier": "every text that has a word, and every line width", "why_tests_cant": "Newlines may be anywhere.", "anchors": [["src/stmt.cc", "CommentStmt::CommentStmt"]]}
{"id": "C438", "title": "Ports of a Verilog module", "statement": "When the ports of a module in Verilog source are declared one after another, each declaration with its direction, possibly a numeric range, and names, importing the module finds exactly these ports, with their directions and widths.", "quantifier": "every text before, between and after the declarations that declares nothing itself, every number of declarations, every names and ranges", "why_tests_cant": "A test imports a few files; the property is about every module text of this shape, of every length.", "anchors": [["src/util.cc", "get_port_from_mod_def"]]}
{"id": "C439", "title": "Width of a port in an ANSI port list", "statement": "A port in a list of declarations has the width it is declared with, one if it is declared without a range.", "quantifier": "every two declarations in one list", "why_tests_cant": "Only a list with a range in an earlier declaration and none in a later one shows the failure.", "anchors": [["src/util.cc", "get_port_from_mod_def"]]}
{"id": "C440", "title": "Ports declared with a type", "statement": "A port declared with a type, such as logic, is imported as one port.", "quantifier": "every direction and name", "why_tests_cant": "Tests only import modules whose ports have no type.", "anchors": [["src/util.cc", "get_port_from_mod_def"]]}
{"id": "C441", "title": "Ports with a parametrised width", "statement": "Importing a module one of whose ports has a width that is an expression gives ports or an error, never an access out of bounds.", "quantifier": "every direction, parameter name and rest of the module", "why_tests_cant": "An access past the end of a vector may go unnoticed in a test run.", "anchors": [["src/util.cc", "get_port_from_mod_def"]]}
{"id": "C442", "title": "Ports on lines of their own", "statement": "Ports in a list that are declared on lines of their own are imported with their names and directions.", "quantifier": "every two directions and names", "why_tests_cant": "Tests import modules with particular layouts.", "anchors": [["src/util.cc", "get_port_from_mod_def"]]}
{"id": "C443", "title": "Ranges next to the keyword", "statement": "A port whose range follows the keyword without a blank is imported with its width.", "quantifier": "every direction, range and name", "why_tests_cant": "Tests import modules with particular layouts.", "anchors": [["src/util.cc", "get_port_from_mod_def"]]}
{"id": "C444", "title": "Connections of a port", "statement": "What a port is reported to be connected from or to are ports of other generators, of the other direction, that a statement connects it with; and when ports are connected as a whole all of them are reported, from both ends.", "quantifier": "every design, every two ports", "why_tests_cant": "A test asks for the connections of a few ports in one design; the property is about all statements and both ends at once.", "anchors": [["src/port.cc", "Port::connected_from"], ["src/port.cc", "Port::connected_to"]]}
{"id": "C445", "title": "Connections of part of a port", "statement": "When a statement connects part of a port, the connection is reported from both ends as well.", "quantifier": "every design, every two ports", "why_tests_cant": "Tests connect whole ports only.", "anchors": [["src/port.cc", "Port::connected_from"], ["src/port.cc", "Port::connected_to"]]}
{"id": "C446", "title": "Whether a port is connected", "statement": "An input is reported as connected exactly if some statement drives it or part of it, an output exactly if some statement reads it or part of it, also in an index.", "quantifier": "every design and port", "why_tests_cant": "A test checks a few ports; the property is about every way in which a statement can use a port.", "anchors": [["src/port.cc", "Port::connected"]]}
{"id": "C447", "title": "Outputs that are connected", "statement": "An output that is reported as connected is connected to something outside its generator.", "quantifier": "every design and output", "why_tests_cant": "Tests do not read an output inside its own generator.", "anchors": [["src/port.cc", "Port::connected"]]}
{"id": "C448", "title": "Wiring interfaces", "statement": "Wiring the interface of a generator with that of one of its instances connects every port of the inner interface, and nothing else, with the signal of the same name, in the right direction, in whichever order the two are given; it is refused, without effect, when neither is an instance in the other or another generator is asked.", "quantifier": "every two interfaces, every set and order of ports, every directions", "why_tests_cant": "A test wires one interface; the property is about all of them and both orders.", "anchors": [["src/generator.cc", "Generator::wire_interface"]]}
{"id": "C449", "title": "Wiring interfaces that do not fit", "statement": "When wiring two interfaces is refused, nothing is connected.", "quantifier": "every two interfaces and orders of ports", "why_tests_cant": "What is left behind after an exception is not looked at by tests.", "anchors": [["src/generator.cc", "Generator::wire_interface"]]}
{"id": "C450", "title": "Variables of arrays and structs in the debug database", "statement": "For an array the debug database holds exactly its elements, each once and under its own name (a.1.2 for a[1][2]); for a struct it holds exactly the members.", "quantifier": "every array with any number of dimensions, every struct, every names", "why_tests_cant": "A test looks at a few small arrays; the property is about all dimensions.", "anchors": [["src/debug.cc", "create_variables"]]}
{"id": "C451", "title": "Variables selected by a signal in the debug database", "statement": "For an assignment to an array element selected by a signal, the debug database holds every element with the condition under which it is selected, and for every value of the index exactly one.", "quantifier": "every array size, index and plain name", "why_tests_cant": "A test looks at one array; the property is about every size and every value of the index.", "anchors": [["src/debug.cc", "create_variables"]]}
{"id": "C452", "title": "Bits selected by a signal in the debug database", "statement": "For an assignment to a bit selected by a signal, the debug database holds every bit of the variable.", "quantifier": "every width and bit", "why_tests_cant": "Tests select elements of arrays only.", "anchors": [["src/debug.cc", "create_variables"]]}
{"id": "C453", "title": "Selected elements of different members in the debug database", "statement": "Elements selected in differently named arrays are held under different names.", "quantifier": "every two names", "why_tests_cant": "Tests use names without dots.", "anchors": [["src/debug.cc", "create_variables"]]}
{"id": "C454", "title": "Structs inside structs in the debug database", "statement": "An assignment to a struct that is a member or an element holds its members in the debug database.", "quantifier": "every struct and name", "why_tests_cant": "Tests have no nested structs in the database.", "anchors": [["src/debug.cc", "create_variables"]]}
{"id": "C455", "title": "Mapping a variable again", "statement": "When a front-end name is mapped again, the debug database uses the later mapping.", "quantifier": "every two mappings and names", "why_tests_cant": "Tests set the mapping once.", "anchors": [["src/debug.cc", "DebugDatabase::set_variable_mapping"]]}
{"id": "C456", "title": "Signals of a simulation run by name", "statement": "The hierarchical name of a variable, followed by indices, selects that variable and these elements; a name that does not start with the top, ends in an instance or names no variable selects nothing.", "quantifier": "every hierarchy, every path, variable and indices", "why_tests_cant": "A test names a few signals; the property is about every depth of the hierarchy and every number of indices.", "anchors": [["src/fault.cc", "SimulationRun::select"], ["src/fault.cc", "SimulationRun::add_simulation_state"]]}
{"id": "C457", "title": "Elements of arrays in a simulation run", "statement": "The elements of every array of the design can be given by name.", "quantifier": "every array and index", "why_tests_cant": "Tests give scalars only.", "anchors": [["src/fault.cc", "SimulationRun::select"]]}
{"id": "C458", "title": "Variables named like instances in a simulation run", "statement": "Every variable of the design that is no array can be given by its hierarchical name.", "quantifier": "every hierarchy and variable", "why_tests_cant": "Tests have no variable that is named like an instance.", "anchors": [["src/fault.cc", "SimulationRun::select"]]}
{"id": "C459", "title": "Marking an unknown signal", "statement": "Marking a signal as wrong by a name that selects nothing gives an error.", "quantifier": "every name", "why_tests_cant": "Undefined behaviour may go unnoticed or crash; tests mark signals that exist.", "anchors": [["src/fault.cc", "SimulationRun::mark_wrong_value"]]}
{"id": "C460", "title": "States that are refused", "statement": "A simulation state that is refused because of an unknown name is not kept.", "quantifier": "every sequence of states and values", "why_tests_cant": "Tests do not go on after an exception.", "anchors": [["src/fault.cc", "SimulationRun::add_simulation_state"]]}
{"id": "C461", "title": "Indices of signals", "statement": "Only numbers are taken as indices in the name of a signal.", "quantifier": "every name", "why_tests_cant": "Tests use well-formed names.", "anchors": [["src/fault.cc", "SimulationRun::select"]]}
{"id": "C462", "title": "Collecting child state machines ends", "statement": "Collecting the state machines below a state machine ends, whatever was made whose child, circles included.", "quantifier": "every history of adding children, every state machine", "why_tests_cant": "A test has a few state machines; a circle of any length must be met.", "anchors": [["src/fsm.cc", "FSM::get_all_child_fsm"], ["src/fsm.cc", "FSM::add_child_fsm"]]}
{"id": "C463", "title": "The collected child state machines", "statement": "When the state machines below a state machine are collected, the answer has it and exactly those below it, each once, and parents before children.", "quantifier": "every history of adding children, every state machine", "why_tests_cant": "Tests have one level of children.", "anchors": [["src/fsm.cc", "FSM::get_all_child_fsm"]]}
{"id": "C464", "title": "When child state machines can be collected", "statement": "There is an answer exactly when no state machine is reached in two ways; circles are always reported.", "quantifier": "every history of adding children, every state machine", "why_tests_cant": "Needs all shapes of hierarchies.", "anchors": [["src/fsm.cc", "FSM::get_all_child_fsm"]]}
{"id": "C465", "title": "State machines added once", "statement": "If no state machine is made a child twice and there is no circle, the state machines below any can be collected, and the parent of each child is the one it was added to.", "quantifier": "every history of adding children in which no state machine is added twice and without circles", "why_tests_cant": "Needs all shapes of hierarchies.", "anchors": [["src/fsm.cc", "FSM::get_all_child_fsm"], ["src/fsm.cc", "FSM::add_child_fsm"]]}
{"id": "C466", "title": "Circular state machines", "statement": "A circular dependency of state machines is reported only when there is one.", "quantifier": "every history of adding children", "why_tests_cant": "Tests do not share a state machine between two parents.", "anchors": [["src/fsm.cc", "FSM::get_all_child_fsm"]]}
{"id": "C467", "title": "Parents of state machines", "statement": "The parent of a state machine is the one that has it as a child.", "quantifier": "every history of adding children", "why_tests_cant": "Tests add a state machine once.", "anchors": [["src/fsm.cc", "FSM::add_child_fsm"]]}
{"id": "C468", "title": "If statements checked for latches in sequential blocks", "statement": "In a sequential block an if statement is checked for latches exactly when its condition uses a signal of the sensitivity list that is not a clock, for conditions made of operators, extensions, concatenations and parts of signals picked by constants.", "quantifier": "every condition of that form, every sensitivity list", "why_tests_cant": "Conditions can be nested without bound.", "anchors": [["src/analysis.cc", "LatchVisitor::check_sequential"], ["src/analysis.cc", "IfVisitor::has_var"]]}
{"id": "C469", "title": "Hidden resets", "statement": "Every if statement that tests the reset is checked for latches.", "quantifier": "every condition", "why_tests_cant": "Tests use the reset itself as the condition.", "anchors": [["src/analysis.cc", "IfVisitor::has_var"]]}
{"id": "C470", "title": "Expressions with loop variables", "statement": "An expression is taken to use a loop variable only if it does, and always if it does and is made of operators, extensions, concatenations and parts picked by constants.", "quantifier": "every expression", "why_tests_cant": "Expressions can be nested without bound.", "anchors": [["src/expr.cc", "IterVar::has_iter_var"]]}
{"id": "C471", "title": "Hidden loop variables", "statement": "Every expression that uses a loop variable is taken to.", "quantifier": "every expression", "why_tests_cant": "Tests use a loop variable plus a constant.", "anchors": [["src/expr.cc", "IterVar::has_iter_var"]]}
{"id": "C472", "title": "Text of big constants", "statement": "The text of a constant made of an integer of more than 64 bits denotes that integer in the width given, whatever its sign.", "quantifier": "every integer and width", "why_tests_cant": "A test has a few big numbers; the digits have no bound.", "anchors": [["python/kratos_expr.cc", "init_big_int"], ["src/expr.cc", "Const::constant"], ["src/expr.cc", "Const::to_string"]]}
{"id": "C473", "title": "Integers as constants", "statement": "An integer is taken as a constant exactly when it fits the width and the sign, and is then its value, for widths below 64 and for signed constants of 64 bits.", "quantifier": "every integer, every width from 1 to 64", "why_tests_cant": "Tests try a few values near the bounds.", "anchors": [["python/kratos_expr.cc", "init_big_int"], ["src/expr.cc", "Const::Const"]]}
{"id": "C474", "title": "Large 64 bit constants", "statement": "An unsigned constant of 64 bits can have every value of 64 bits.", "quantifier": "every integer of 64 bits", "why_tests_cant": "Tests use small values.", "anchors": [["python/kratos_expr.cc", "init_big_int"]]}
{"id": "C475", "title": "Negative unsigned constants", "statement": "A negative integer is refused for an unsigned constant.", "quantifier": "every negative integer, every width", "why_tests_cant": "Tests use narrow constants.", "anchors": [["python/kratos_expr.cc", "init_big_int"], ["src/expr.cc", "Const::is_legal"]]}
{"id": "C476", "title": "String constants", "statement": "A string of one to eight characters of ASCII is taken as a constant of eight bits per character, the first character being the most significant; without quotes, backslashes and ends of line its text is read back as the string.", "quantifier": "every such string", "why_tests_cant": "Tests use a word or two.", "anchors": [["src/expr.cc", "StringConst::StringConst"], ["src/expr.cc", "StringConst::to_string"], ["src/expr.cc", "convert_string_to_int"]]}
{"id": "C477", "title": "Quotes in string constants", "statement": "The text of a string constant is a literal of the string.", "quantifier": "every string", "why_tests_cant": "Tests have no quotes in strings.", "anchors": [["src/expr.cc", "StringConst::to_string"]]}
{"id": "C478", "title": "All strings as constants", "statement": "Every string of at most eight characters can be a constant.", "quantifier": "every string", "why_tests_cant": "Tests use letters only.", "anchors": [["src/expr.cc", "StringConst::StringConst"], ["src/expr.cc", "convert_string_to_int"]]}
{"id": "C479", "title": "Copies of ports", "statement": "An ordinary port copied under an unused name gives a port with the same direction, width, sizes, type, sign, packing and array flag, and nothing else in the generator changes; a copy under a keyword or under the name of a port is refused.", "quantifier": "every port that can be made except control ports wider than one bit, every generator, every name", "why_tests_cant": "Tests copy a few ports.", "anchors": [["src/generator.cc", "Generator::port"], ["src/port.cc", "Port::Port"], ["src/generator.cc", "Generator::add_port_name"]]}
{"id": "C480", "title": "Every ordinary port can be copied", "statement": "A port that can be made can be copied under an unused name.", "quantifier": "every port, generator and name", "why_tests_cant": "Tests do not change the type of a wide port before copying it.", "anchors": [["src/generator.cc", "Generator::port"], ["src/port.cc", "Port::set_port_type"]]}
{"id": "C481", "title": "Polarity of copied ports", "statement": "The copy of a port is active high or low as the port is.", "quantifier": "every port, generator and name", "why_tests_cant": "Tests do not look at the polarity of copies.", "anchors": [["src/generator.cc", "Generator::port"], ["src/port.cc", "Port::set_active_high"]]}
{"id": "C482", "title": "Copies of struct and enumeration ports", "statement": "A struct port copied as a struct port keeps its members, direction and width; an enumeration port, copied from C++ or from Python, keeps its enumeration, direction, width and sizes.", "quantifier": "every struct and enumeration port, every generator and unused name", "why_tests_cant": "Tests copy one struct.", "anchors": [["src/generator.cc", "Generator::port"], ["src/port.cc", "PortPackedStruct::PortPackedStruct"], ["src/port.cc", "EnumPort::EnumPort"], ["python/kratos_generator.cc", "port"]]}
{"id": "C483", "title": "Copies of arrays of structs", "statement": "The copy of a struct port has the sizes of the port.", "quantifier": "every struct port", "why_tests_cant": "Tests copy no array of structs.", "anchors": [["src/generator.cc", "Generator::port"]]}
{"id": "C484", "title": "Copies of struct ports from Python", "statement": "The copy of a struct port made from Python is a struct port.", "quantifier": "every struct port", "why_tests_cant": "Tests do not ask for the members of the copy.", "anchors": [["python/kratos_generator.cc", "port"], ["kratos/generator.py", "port_from_def"]]}
{"id": "C485", "title": "Ports of flattened wrappers", "statement": "A single port of a generator appears in its flattened wrapper with the same direction, width, sizes, type, sign and packing.", "quantifier": "every single port but inputs of enumerations", "why_tests_cant": "Tests wrap a few generators.", "anchors": [["src/codegen.cc", "create_wrapper_flatten"], ["src/generator.cc", "Generator::port"]]}
{"id": "C486", "title": "Every generator can be wrapped", "statement": "A generator whose ports can be declared can be wrapped.", "quantifier": "every generator", "why_tests_cant": "Tests wrap no generator with an enumeration.", "anchors": [["src/codegen.cc", "create_wrapper_flatten"], ["src/port.cc", "EnumPort::assign_"]]}
{"id": "C487", "title": "Event information", "statement": "The event information of a design has every event that is not in an external generator once, as they are written, with its name, transaction, actions and fields; an event is said to be combinational unless it is in a sequential block of the generator it is in.", "quantifier": "every design, every nesting of generators, blocks and statements", "why_tests_cant": "Tests nest events one or two deep.", "anchors": [["src/event.cc", "extract_event_info"], ["src/event.cc", "EventVisitor::add_info"], ["src/ir.cc", "IRVisitor::visit_root"]]}
{"id": "C488", "title": "What is said of an event", "statement": "However calls are chained, an event starts a transaction if and only if it was said to, ends one if and only if it was said to, belongs to the last transaction named, and keeps its name and fields.", "quantifier": "every sequence of calls", "why_tests_cant": "Tests chain one or two calls.", "anchors": [["src/stmt.cc", "EventTracingStmt::starts"], ["src/stmt.cc", "EventTracingStmt::terminates"], ["src/stmt.cc", "EventTracingStmt::belongs"], ["src/event.cc", "Event::fire"]]}
{"id": "C489", "title": "Matched values of events", "statement": "A field of an event is matched by the value given in the last call.", "quantifier": "every sequence of calls", "why_tests_cant": "Tests match each field once.", "anchors": [["src/stmt.cc", "EventTracingStmt::matches"]]}
{"id": "C490", "title": "Loop variables assigned to signals", "statement": "A loop variable is assigned to a signal of another width exactly if the signs agree and every value it takes fits that width; it is then resized, and no constant is changed. Any other expression without loop variables is assigned only at the width and sign of the signal.", "quantifier": "every loop, every width up to 64, every sign", "why_tests_cant": "Tests assign a few loop variables.", "anchors": [["src/stmt.cc", "AssignStmt::AssignStmt"], ["src/expr.cc", "IterVar::safe_to_resize"], ["src/expr.cc", "IterVar::fix_width"]]}
{"id": "C491", "title": "Sums of loop variables assigned to narrower signals", "statement": "A sum, difference or product of loop variables and constants that is wider than the signal, and whose values all fit it, is assigned to the signal if its constants fit too; the new right hand side has the width of the signal and its bits are the low bits of what it was.", "quantifier": "every expression of sums, differences and products over loop variables and unsigned constants, every signal of up to 64 bits that is narrower, all values of the loop variables", "why_tests_cant": "Tests assign one loop variable, or one sum for one range.", "anchors": [["src/stmt.cc", "AssignStmt::AssignStmt"], ["src/expr.cc", "IterVar::fix_width"]]}
{"id": "C492", "title": "Shifts and quotients of loop variables keep their values", "statement": "An expression over loop variables and constants whose values all fit the narrower signal it is assigned to gives that signal the value it had before.", "quantifier": "every expression over loop variables and constants, with any operator", "why_tests_cant": "It holds for sums, differences and products; tests do not shift or divide a product that is wider than the signal.", "anchors": [["src/expr.cc", "IterVar::fix_width"], ["src/stmt.cc", "AssignStmt::AssignStmt"]]}
{"id": "C493", "title": "Constants in assigned expressions", "statement": "An expression over loop variables whose values all fit the signal is assigned to it, whatever its constants.", "quantifier": "every expression of sums, differences and products", "why_tests_cant": "Tests use small constants.", "anchors": [["src/expr.cc", "IterVar::fix_width"], ["src/expr.cc", "Const::set_width"]]}
{"id": "C494", "title": "Refused assignments change nothing", "statement": "An assignment that is refused leaves the expression and its constants as they were.", "quantifier": "every expression and signal", "why_tests_cant": "Tests do not use an expression after it was refused.", "anchors": [["src/stmt.cc", "AssignStmt::AssignStmt"], ["src/expr.cc", "IterVar::fix_width"]]}
{"id": "C495", "title": "Taken assignments leave other expressions alone", "statement": "An expression that has a width keeps it when another expression is assigned.", "quantifier": "every two expressions, which may share constants", "why_tests_cant": "Tests do not share a constant between expressions of different widths.", "anchors": [["src/stmt.cc", "AssignStmt::AssignStmt"], ["src/expr.cc", "IterVar::fix_width"]]}
{"id": "C496", "title": "Generators by name", "statement": "While every generator has a name, what a context lists under a name are generators of that name, each once. All generators but clones are listed if none was removed; a removed one is listed nowhere, and nothing is after the context was cleared.", "quantifier": "every history of making, cloning, renaming, adding, removing and marking generators, and of clearing the context", "why_tests_cant": "Tests look up a name after one or two steps.", "anchors": [["src/context.cc", "Context::get_generators_by_name"], ["src/context.cc", "Context::change_generator_name"], ["src/context.cc", "Context::remove"]]}
{"id": "C497", "title": "Renaming generators", "statement": "A generator that is in the context gets the new name and is listed under it alone; no other generator changes its name or its place. One that is not in the context is refused and nothing changes.", "quantifier": "every history in which everything has a name, every generator and name", "why_tests_cant": "Tests rename single generators.", "anchors": [["src/context.cc", "Context::change_generator_name"]]}
{"id": "C498", "title": "Generators named later", "statement": "A generator is listed under its name, also if it was made without one or its name was taken away.", "quantifier": "every history", "why_tests_cant": "Tests name generators when they are made.", "anchors": [["src/context.cc", "Context::change_generator_name"], ["src/context.cc", "Context::empty_generator"]]}
{"id": "C499", "title": "Names that exist", "statement": "A name exists exactly if a generator has it.", "quantifier": "every history", "why_tests_cant": "Tests ask for names that were never given up.", "anchors": [["src/context.cc", "Context::generator_name_exists"]]}
{"id": "C500", "title": "Unique generators", "statement": "A generator is unique exactly if one generator that is neither external nor a clone is listed under its name.", "quantifier": "every history", "why_tests_cant": "Tests have two generators of one name.", "anchors": [["src/context.cc", "Context::is_unique"]]}
{"id": "C501", "title": "Unique generators have names of their own", "statement": "Two unique generators with contents have different names.", "quantifier": "every history", "why_tests_cant": "Tests do not name clones.", "anchors": [["src/context.cc", "Context::is_unique"], ["kratos/generator.py", "Generator.initialize_clone"]]}
{"id": "C502", "title": "Clones follow their originals", "statement": "A clone always has the name of the generator it was cloned from, so that its instance refers to that module.", "quantifier": "every history of cloning and renaming", "why_tests_cant": "Tests do not rename what was cloned.", "anchors": [["src/context.cc", "Context::change_generator_name"], ["src/generator.cc", "Generator::clone"], ["src/codegen.cc", "SystemVerilogCodeGen::stmt_code"]]}
{"id": "C503", "title": "Stubs are driven by zero", "statement": "A module marked as a stub is taken exactly if it has no statements, no variables and no port that is used inside, and its outputs are unsigned, of no enumeration, packed and of up to 64 bits. Then each of its ports that is no input is driven by zero, once, and nothing else is added; modules that are no stubs are left alone.", "quantifier": "every module with any ports, every design", "why_tests_cant": "Tests have one stub with one output.", "anchors": [["src/transform.cc", "zero_out_stubs"], ["src/transform.cc", "StubGeneratorVisitor::visit"]]}
{"id": "C504", "title": "All outputs of stubs", "statement": "A stub can have outputs of any sign, type and width.", "quantifier": "every module without contents", "why_tests_cant": "Tests have unsigned vectors.", "anchors": [["src/transform.cc", "StubGeneratorVisitor::visit"], ["src/stmt.cc", "AssignStmt::AssignStmt"], ["src/port.cc", "EnumPort::assign_"]]}
{"id": "C505", "title": "Stubs zeroed twice", "statement": "Zeroing the stubs of a design that was zeroed succeeds, so that it can be compiled again.", "quantifier": "every design", "why_tests_cant": "Tests compile a stub once.", "anchors": [["src/transform.cc", "zero_out_stubs"]]}
{"id": "C506", "title": "Refused stubs are unchanged", "statement": "A stub that is refused is left as it was.", "quantifier": "every stub", "why_tests_cant": "Tests do not look at a module after an exception.", "anchors": [["src/transform.cc", "StubGeneratorVisitor::visit"]]}
{"id": "C507", "title": "Stubs drive outputs only", "statement": "A stub drives nothing but its outputs.", "quantifier": "every stub", "why_tests_cant": "Tests have no bidirectional ports.", "anchors": [["src/transform.cc", "StubGeneratorVisitor::visit"]]}
{"id": "C508", "title": "Pass managers", "statement": "A pass manager runs the passes that were added, in the order they were added and as often, each the first that was registered under its name, and stops at the first exception. A name is registered once and only registered names can be added; a refused call changes nothing.", "quantifier": "every history of registering and adding, every behaviour of the passes", "why_tests_cant": "Tests run the standard list.", "anchors": [["src/pass.cc", "PassManager::run_passes"], ["src/pass.cc", "PassManager::register_pass"], ["src/pass.cc", "PassManager::add_pass"]]}
{"id": "C509", "title": "Names of blocks", "statement": "In a generator a name belongs to the first block that was given it, and another block is refused it without effect. A block with names is printed with one of them, a block without names with none, and no two blocks with the same, whatever the order of the hash tables.", "quantifier": "every history of naming blocks, adding variables and inlining, every order of the names", "why_tests_cant": "The order of a hash table depends on the library and the names.", "anchors": [["src/generator.cc", "Generator::add_named_block"], ["src/codegen.cc", "SystemVerilogCodeGen::index_named_block"], ["src/codegen.cc", "SystemVerilogCodeGen::block_label"]]}
{"id": "C510", "title": "Blocks with two names", "statement": "The name a block is printed with does not depend on the order of a hash table.", "quantifier": "every history of naming, every two orders", "why_tests_cant": "A test sees one order.", "anchors": [["src/codegen.cc", "SystemVerilogCodeGen::index_named_block"], ["src/generator.cc", "Generator::named_blocks_labels"]]}
{"id": "C511", "title": "Names of inlined blocks", "statement": "A block that was given a name in its generator is printed with a name wherever it ends up.", "quantifier": "every history of naming and inlining", "why_tests_cant": "Tests do not name the blocks of generators that are inlined.", "anchors": [["src/generator.cc", "Generator::transfer_content"], ["src/codegen.cc", "SystemVerilogCodeGen::block_label"]]}
{"id": "C512", "title": "Labels and variables in one scope", "statement": "If no call is refused, all names in the scope of a module, of its variables and of its labels, are different.", "quantifier": "every history of naming blocks and adding variables", "why_tests_cant": "Tests choose different names.", "anchors": [["src/generator.cc", "Generator::add_named_block"], ["src/generator.cc", "Generator::var"]]}
{"id": "C513", "title": "Comments of children", "statement": "Where a child is commented on while it is there and at most once, it keeps its comment, and nothing but it, while children are added, renamed and removed.", "quantifier": "every such history", "why_tests_cant": "It ranges over histories in which names are used again.", "anchors": [["src/generator.cc", "Generator::set_child_comment"], ["src/generator.cc", "Generator::rename_child_generator"], ["src/generator.cc", "Generator::remove_child_generator"]]}
{"id": "C514", "title": "Setting the comment of a child", "statement": "After the comment of a child was set it is the one that was set.", "quantifier": "every history of comments", "why_tests_cant": "Tests set it once.", "anchors": [["src/generator.cc", "Generator::set_child_comment"]]}
{"id": "C515", "title": "Comments of renamed children", "statement": "A child that is renamed keeps its comment.", "quantifier": "every history, in which comments may also be set for names that no child has", "why_tests_cant": "Tests comment on children only.", "anchors": [["src/generator.cc", "Generator::rename_child_generator"]]}
{"id": "C516", "title": "Concatenations", "statement": "x.concat(y) is refused exactly if the signs of the two differ. Otherwise it is the parts of x followed by y, as wide as both together (in 32 bits), with the sign of x, and nothing that was there before changes. For a signal that is not a concatenation it is the same object whenever it is asked for again.", "quantifier": "every history of making variables, concatenations and extensions", "why_tests_cant": "It ranges over histories, as objects are kept and returned again.", "anchors": [["src/expr.cc", "Var::concat"], ["src/expr.cc", "VarConcat::concat"], ["src/expr.cc", "VarConcat::VarConcat"]]}
{"id": "C517", "title": "Extensions", "statement": "x.extend(w) is refused exactly if x is wider than w. Otherwise it is an extension of x of width w with the sign of x, the same object whenever it is asked for again, and nothing that was there before changes.", "quantifier": "every history of making variables, concatenations and extensions", "why_tests_cant": "It ranges over histories, as objects are kept and returned again.", "anchors": [["src/expr.cc", "Var::extend"], ["src/expr.cc", "VarExtend::VarExtend"]]}
{"id": "C518", "title": "Concatenations after an exchange", "statement": "x.concat(y) is x followed by y for a signal x, also after signals were exchanged for others of their width and sign.", "quantifier": "every history of making objects and exchanging signals in concatenations", "why_tests_cant": "Tests do not ask for a concatenation again after an exchange.", "anchors": [["src/expr.cc", "Var::concat"], ["src/expr.cc", "VarConcat::replace_var"]]}
{"id": "C519", "title": "Concatenations and extensions after a change of width", "statement": "A concatenation that is asked for is as wide as its parts, and an extension at least as wide as what it extends, also after widths were changed by parameters.", "quantifier": "every history of making objects and changing widths", "why_tests_cant": "Tests set parameters first.", "anchors": [["src/expr.cc", "Var::concat"], ["src/expr.cc", "Var::extend"], ["src/expr.cc", "Param::set_value"]]}
{"id": "C520", "title": "The sign of a concatenation", "statement": "A concatenation is unsigned, as it is in SystemVerilog.", "quantifier": "every two signals", "why_tests_cant": "Tests do not join signed signals.", "anchors": [["src/expr.cc", "VarConcat::VarConcat"], ["src/expr.cc", "Expr::Expr"]]}
{"id": "C521", "title": "Visitors of children that change", "statement": "Where the visit of a child changes nothing before it - it may take out, replace, split or add children from there on - every child that is there when the walk ends was visited, and none twice. Where it only takes out the child or some after it, the walk ends, visits in the order of the children, and so does the walk that does not remember its visits.", "quantifier": "every list of children and every effect of the visits on it", "why_tests_cant": "Each pass makes its own changes, to every list of statements.", "anchors": [["src/ir.cc", "IRVisitor::visit_root"], ["src/ir.cc", "IRVisitor::visit_root_s"]]}
{"id": "C522", "title": "Visits that take out earlier children", "statement": "A visitor whose visits take out children before the visited one still visits every child that remains.", "quantifier": "every list of children and every such effect", "why_tests_cant": "No pass in the tests takes out two earlier statements.", "anchors": [["src/ir.cc", "IRVisitor::visit_root"]]}
{"id": "C523", "title": "Visits without memory", "statement": "A walk that does not remember its visits visits no child twice, where the visit of a child changes nothing before it.", "quantifier": "every list of children and every such effect", "why_tests_cant": "It depends on the changes the visitor makes.", "anchors": [["src/ir.cc", "IRVisitor::visit_root_s"]]}
{"id": "C524", "title": "Outputs of states", "statement": "A state of a state machine is accepted just where every output declared for the machine has a value in it - the first value the state was given, or else the default of the first declaration - and every variable the state was given a value of is declared; otherwise realising the machine throws. An accepted state assigns each output its value, once, the given ones first, in the order they were given.", "quantifier": "every sequence of declarations and values, including refused ones, and every order of the table of outputs", "why_tests_cant": "It ranges over all sequences of calls and over the order of a hash table.", "anchors": [["src/fsm.cc", "FSM::output"], ["src/fsm.cc", "FSMState::output"], ["src/fsm.cc", "FSMState::check_outputs"]]}
{"id": "C525", "title": "Second values of outputs", "statement": "Giving a state a value for an output that has one there throws and changes nothing, even where the value is the same; any other is taken.", "quantifier": "every sequence of calls before it", "why_tests_cant": "It ranges over all sequences of calls.", "anchors": [["src/fsm.cc", "FSMState::output"]]}
{"id": "C526", "title": "Later defaults of outputs", "statement": "An output that is declared again, with a default, has that default.", "quantifier": "every sequence of calls before it", "why_tests_cant": "The second declaration is ignored without a message, so only a state that relies on the default shows it.", "anchors": [["src/fsm.cc", "FSM::output"]]}
{"id": "C527", "title": "Order of default assignments", "statement": "The order in which a state assigns its outputs depends on the calls alone.", "quantifier": "every sequence of calls and every order of the table of outputs", "why_tests_cant": "The order of a hash table of pointers varies from run to run.", "anchors": [["src/fsm.cc", "FSMState::check_outputs"]]}
{"id": "C528", "title": "Indentation of lines", "statement": "Whatever was printed before, a printed line begins with two spaces for each level it is nested in, and with none where it goes on after else or a case label; that holds for that line alone.", "quantifier": "every sequence of levels entered and left, of lines and of omissions", "why_tests_cant": "The indentation is cut from a string that is kept and grows, so it depends on all that was printed before.", "anchors": [["src/codegen.cc", "SystemVerilogCodeGen::indent"]]}
{"id": "C529", "title": "Indentation of closing lines", "statement": "The closing line of an instantiation is indented as its first line is, whatever was printed between them.", "quantifier": "every sequence of acts before and between", "why_tests_cant": "It is cut from a string another function makes.", "anchors": [["src/codegen.cc", "SystemVerilogCodeGen::pre_indent"], ["src/codegen.cc", "generate_port_interface"]]}
{"id": "C530", "title": "Indentation around a level", "statement": "The indentation of a closing line is that of the level around it, whatever was printed before.", "quantifier": "every sequence of acts", "why_tests_cant": "The function relies on a line that was printed before.", "anchors": [["src/codegen.cc", "SystemVerilogCodeGen::pre_indent"]]}
