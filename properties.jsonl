{"id": "C01", "title": "Live active variables never share a location", "statement": "At every point of a program, any two adoubles that are alive at the same time have different locations; constructing an adouble never returns the location of a live one, and construction/destruction never fails or leaves the allocated array.", "quantifier": "all finite sequences of constructions, destructions, ensureContiguousLocations requests, reads and writes by a client that only frees/uses locations it owns; all garbage-collection trigger outcomes", "why_tests_cant": "aliasing needs a particular interleaving of frees, merges and growth steps; the set of histories is infinite", "anchors": ["ADOL-C/src/storemanager.cpp: StoreManagerLocintBlock::next_loc, free_loc, grow, consolidateBlocks"]}
{"id": "C02", "title": "ensureContiguousLocations(n) really gives n consecutive locations", "statement": "After ensureContiguousLocations(n), the next n adoubles constructed with nothing in between get locations a, a+1, ..., a+n-1.", "quantifier": "all prior histories, all n, all garbage-collection trigger outcomes", "why_tests_cant": "depends on the shape of the free list left behind by an arbitrary history", "anchors": ["ADOL-C/src/storemanager.cpp: StoreManagerLocintBlock::ensure_block, consolidateBlocks, grow", "ADOL-C/include/adolc/valuetape/valuetape.h: ensureContiguousLocations"]}
{"id": "C03", "title": "Growing or reorganising the store keeps the values of live variables", "statement": "Reading the value of a live adouble returns the value last assigned to it since its construction, whatever other variables were constructed, destroyed or written in between and however often the store was reallocated.", "quantifier": "all histories as in C01", "why_tests_cant": "reallocation happens at data dependent points of unbounded histories", "anchors": ["ADOL-C/src/storemanager.cpp: StoreManagerLocintBlock::grow", "ADOL-C/include/adolc/valuetape/valuetape.h: get_ad_value, set_ad_value"]}
{"id": "C04", "title": "The number of live variables is counted exactly and free + live fills the store", "statement": "The reported number of live variables equals the number of constructed and not yet destroyed adoubles, is at most the capacity, and the free list holds exactly the remaining locations, each once (no leak, no double entry).", "quantifier": "all histories as in C01", "why_tests_cant": "a leak shows only after long histories", "anchors": ["ADOL-C/src/storemanager.cpp: StoreManagerLocintBlock::size, maxSize, free_loc"]}
{"id": "C05", "title": "The singleton location manager is also safe", "statement": "StoreManagerLocint satisfies C01, C03 and C04 and never hands out location 0; ensureContiguousLocations is answered by an error and changes nothing.", "quantifier": "all histories of next/free/read/write requests", "why_tests_cant": "as C01; the free list is threaded through an index array that is reallocated while in use", "anchors": ["ADOL-C/src/storemanager.cpp: StoreManagerLocint::next_loc, free_loc, grow, ensure_block"]}
{"id": "C06", "title": "The recorded operation sequence is read back exactly in a forward sweep", "statement": "Reading a trace from its start returns exactly the operations, locations and constants that were recorded, in order, for every combination of buffer sizes between the working minimum (3 operations, 43 locations, 5 values) and one I/O chunk, and whether or not the tape spilled to files.", "quantifier": "all recorded programs, all operation / location / value buffer capacities large enough for one operation", "why_tests_cant": "bugs appear only when an operation meets a buffer boundary; there are unboundedly many alignments", "anchors": ["ADOL-C/include/adolc/valuetape/valuetape.h: put_op, put_loc, put_val, get_op_f, get_locint_f, get_val_f", "ADOL-C/src/valuetape/valuetape.cpp: put_op_block, put_loc_block, put_val_block, get_op_block_f, get_loc_block_f, get_val_block_f"]}
{"id": "C07", "title": "The recorded operation sequence is read back exactly in a reverse sweep", "statement": "Reading a trace from its end returns exactly the recorded operations, locations and constants in reverse order, for the buffer sizes of C06 and whether or not the tape spilled to files, provided the parameters fit in the last value block and a value file, if requested, is not empty.", "quantifier": "as C06", "why_tests_cant": "the reverse reader must undo padding written at block ends, at every alignment", "anchors": ["ADOL-C/include/adolc/valuetape/valuetape.h: get_op_r, get_locint_r, get_val_r", "ADOL-C/src/valuetape/valuetape.cpp: get_op_block_r, get_loc_block_r, get_val_block_r"]}
{"id": "C08", "title": "The value (Taylor) stack is a lossless stack", "statement": "What a forward sweep with keep pushes on the Taylor stack is popped by the reverse sweep in exactly the opposite order, for every buffer size and any number of spills to file.", "quantifier": "all push sequences, all buffer capacities, all spill points", "why_tests_cant": "spill points depend on sizes no test enumerates", "anchors": ["ADOL-C/src/tapeinfos.cpp: write_taylor, write_scaylors, get_taylors, get_taylor", "ADOL-C/src/valuetape/valuetape.cpp: put_tay_block, get_tay_block_r"]}
{"id": "C09", "title": "trace_on / trace_off bracket a trace and nest correctly", "statement": "After trace_off the tape that was current before the matching trace_on is current again; operations recorded in between go to exactly the tape named by the innermost open trace_on.", "quantifier": "all well-nested sequences of trace_on / trace_off over arbitrarily many tags", "why_tests_cant": "nesting depth and interleavings are unbounded", "anchors": ["ADOL-C/src/tape_interface.cpp: trace_on, trace_off", "ADOL-C/include/adolc/tape_interface.h: currentTape, setCurrentTape"]}
{"id": "C10", "title": "trace_on starts the trace and reports success, with or without explicit buffer sizes", "statement": "trace_on(tag, keep) makes the named tape the current one, empty and recording, leaves every other tape and the last finished trace alone, and an unknown tag is reported; trace_on(tag, keep, obs, lbs, vbs, tbs, skip) on a fresh tag starts tracing with those buffer sizes and returns the documented success value.", "quantifier": "all tags, keep flags and buffer sizes", "why_tests_cant": "claim about every parameter value, the call is not covered by the examples", "anchors": ["ADOL-C/src/tape_interface.cpp: trace_on"]}
{"id": "C11", "title": "Replaying the trace at the recording point reproduces the recorded outputs", "statement": "zos_forward at the point used for recording returns exactly (bit for bit) the dependent values computed while tracing.", "quantifier": "all recorded programs over the modelled operations, all inputs", "why_tests_cant": "the recorder and the interpreter are two separate pieces of code that must agree on every program, including location reuse and the eq_plus_prod peephole", "anchors": ["ADOL-C/src/adouble.cpp: operators", "ADOL-C/src/uni5_for.cpp: zos_forward"]}
{"id": "C12", "title": "Replaying the trace at another point evaluates the program there", "statement": "zos_forward at a new point with a non-negative return code returns the values the program would have computed at that point, provided no recorded comparison changes its outcome.", "quantifier": "all recorded programs, all pairs of recording point / evaluation point", "why_tests_cant": "quantifies over pairs of points and programs", "anchors": ["ADOL-C/src/adouble.cpp: operators", "ADOL-C/src/uni5_for.cpp: zos_forward"]}
{"id": "C13", "title": "A changed control flow is reported", "statement": "If some recorded comparison with zero would have come out differently at the new point, the forward sweep returns a negative return code; if none differs it does not.", "quantifier": "all recorded programs and evaluation points", "why_tests_cant": "the silent miss of one comparison yields wrong derivatives without any error", "anchors": ["ADOL-C/src/adouble.cpp: comparison operators", "ADOL-C/src/uni5_for.cpp: MINDEC, eq_zero .. lt_zero cases"]}
{"id": "C14", "title": "fos_forward computes the directional derivative", "statement": "At a point where the program is differentiable, fos_forward returns the derivative of the recorded function in the given direction.", "quantifier": "all recorded programs over the modelled operations, all points and directions", "why_tests_cant": "statement about mathematical derivatives of every program", "anchors": ["ADOL-C/src/uni5_for.cpp: fos_forward"]}
{"id": "C15", "title": "Reverse mode is the exact transpose of forward mode", "statement": "For every weight vector u and direction v, <u, fos_forward(v)> = <fos_reverse(u), v>; hence gradient / vec_jac return u^T F'(x).", "quantifier": "all recorded programs, points, weights, directions", "why_tests_cant": "as C14, plus overwritten variables must be restored correctly", "anchors": ["ADOL-C/src/fo_rev.cpp: fos_reverse"]}
{"id": "C16", "title": "The reverse sweep restores overwritten values", "statement": "While sweeping backwards, every operation sees the operand values it saw in the forward sweep, in spite of location reuse, in-place updates and eq_plus_prod recomputation; after the sweep the stack is used up exactly.", "quantifier": "all recorded programs with keep", "why_tests_cant": "each operation must push exactly what its reverse pops; one missing push shifts all later pops", "anchors": ["ADOL-C/src/adouble.cpp: write_scaylor calls", "ADOL-C/src/fo_rev.cpp: get_taylor calls"]}
{"id": "C17", "title": "Parameters can be changed between sweeps", "statement": "After set_param_vec, every sweep evaluates the traced function with the new parameter values, exactly as if the program had been traced with them (and no comparison changes).", "quantifier": "all recorded programs with parameters, all parameter vectors", "why_tests_cant": "a pair-of-executions property over all programs", "anchors": ["ADOL-C/src/pdouble.cpp: pdouble", "ADOL-C/src/valuetape/valuetape.cpp: set_param_vec", "ADOL-C/src/uni5_for.cpp: *_p operations"]}
{"id": "C18", "title": "The Jacobian sparsity pattern is never too small", "statement": "If the reported pattern for dependent i does not contain independent j, then changing x_j does not change y_i as long as the decisions taken inside the trace stay the same (safe mode: branches of conditional assignments; tight mode: also the operand selected by fmin and the step of ceil/floor), and the derivative of y_i with respect to x_j is zero. Rows list columns in increasing order, without repetition.", "quantifier": "all recorded programs, all points, both propagation modes", "why_tests_cant": "an omitted nonzero makes compressed Jacobians silently wrong; needs all programs", "anchors": ["ADOL-C/src/uni5_for.cpp: _INDOPRO_ sections", "ADOL-C/include/adolc/sparse/sparsedrivers.h: jac_pat"]}
{"id": "C19", "title": "The Hessian sparsity pattern is never too small", "statement": "If the reported Hessian pattern does not contain (i,j), the mixed second difference (hence the mixed second derivative) of the traced function with respect to x_i and x_j vanishes identically.", "quantifier": "all recorded scalar programs over the modelled operations, all points and step sizes", "why_tests_cant": "as C18, for second order interaction", "anchors": ["ADOL-C/src/uni5_for.cpp: _NONLIND_ sections", "ADOL-C/include/adolc/sparse/sparsedrivers.h: hess_pat"]}
{"id": "C20", "title": "Traceless forward differentiation is correct", "statement": "For the traceless adtl::adouble, the derivative part of every result is the derivative of the value part in the seeded directions.", "quantifier": "all expressions over the overloaded operators, all numbers of directions", "why_tests_cant": "derivative rules must be right for all operand values, compositions and direction counts", "anchors": ["ADOL-C/include/adolc/adtl.h"]}
{"id": "C21", "title": "Higher order forward mode propagates Taylor coefficients", "statement": "hos_forward maps the Taylor coefficients of a path x(t) to those of F(x(t)) up to the requested degree.", "quantifier": "all programs over the modelled operations, all degrees", "why_tests_cant": "convolution loops must be right for every degree", "anchors": ["ADOL-C/src/uni5_for.cpp: _HOS_ sections"]}
{"id": "C22", "title": "tensor_address is a bijection", "statement": "tensor_address maps the multi-indices of order at most d in p variables, up to permutation, one-to-one onto an initial segment of array positions.", "quantifier": "all p, d and multi-indices", "why_tests_cant": "collision for one multi-index corrupts one tensor entry only", "anchors": ["ADOL-C/src/drivers/taylor.cpp: tensor_address, binomi"]}
{"id": "C23", "title": "The revolve schedule is a valid checkpointing schedule", "statement": "Following the actions returned by revolve, every forward step starts from a state that is available, at most snaps checkpoints are held, and the steps are reversed in order capo = steps-1, ..., 0, each exactly once, then terminate.", "quantifier": "all numbers of steps and snaps", "why_tests_cant": "the schedule is a data dependent automaton; there are infinitely many (steps, snaps) pairs", "anchors": ["ADOL-C/src/revolve.cpp"]}
{"id": "C24", "title": "Checkpointed loops give the same adjoint as plain taping", "statement": "The reverse sweep over a checkpointed time-stepping loop returns the adjoint of the composition of all steps.", "quantifier": "all step functions, all step counts and numbers of checkpoints", "why_tests_cant": "composition over unbounded step counts", "anchors": ["ADOL-C/src/checkpointing.cpp"]}
{"id": "C25", "title": "Truncated convolution helpers multiply truncated series", "statement": "The coefficient routines conv, inconv, deconv, divide, recipr, etc. compute product, increment by product, quotient and reciprocal of truncated power series.", "quantifier": "all dimensions and coefficient vectors", "why_tests_cant": "loop bounds must be right for every length", "anchors": ["ADOL-C/src/convolut.cpp"]}
{"id": "C26", "title": "The easy-to-use drivers return what they promise", "statement": "gradient, jacobian, vec_jac, jac_vec, hess_vec, hessian return the documented derivative objects (row/column orientation, symmetry, triangle) of the traced function.", "quantifier": "all n, m and traced functions", "why_tests_cant": "index conventions must hold for all shapes", "anchors": ["ADOL-C/src/drivers/drivers.cpp"]}
{"id": "C27", "title": "min, max, fabs and condassign agree with their plain double meaning", "statement": "fmin(a,b), fmax(a,b), fabs(a), condassign and condeqassign on adoubles yield the value of the corresponding double operation, both while tracing and when replayed.", "quantifier": "all operand values, locations and overload variants (lvalue / rvalue)", "why_tests_cant": "the variants are separate code; a value dependent slip needs the right overload and the right operand order", "anchors": ["ADOL-C/src/adouble.cpp: fmin, fabs, condassign, condeqassign", "ADOL-C/include/adolc/adtb_types.h: fmax", "ADOL-C/src/uni5_for.cpp: min_op, abs_val, cond_assign"]}
{"id": "C28", "title": "Matrix allocation helpers give disjoint rows", "statement": "myalloc2/myalloc3 return row pointers into one block such that different (i,j,k) address different cells inside the block.", "quantifier": "all dimensions", "why_tests_cant": "pointer arithmetic for all sizes", "anchors": ["ADOL-C/src/adalloc.cpp"]}
{"id": "C29", "title": "Fortran conversion helpers are exact inverses", "statement": "spread/pack routines convert between Fortran column order and C rows without loss.", "quantifier": "all dimensions and data", "why_tests_cant": "index formulas for all sizes", "anchors": ["ADOL-C/src/fortutils.cpp"]}
{"id": "C30", "title": "Abs-normal form drivers describe the traced piecewise smooth function", "statement": "The switching vector and the matrices returned by abs_normal reproduce the traced piecewise linear function.", "quantifier": "all traced programs with abs as only kink", "why_tests_cant": "piecewise structure depends on all sign patterns", "anchors": ["ADOL-C/src/drivers/psdrivers.cpp"]}
{"id": "C31", "title": "Requests for locations are served or reported", "statement": "A request for contiguous locations whose total stays within 2^63 ends with a store that has room for it, also in 64-bit arithmetic; a request that would need more locations than can be represented raises the documented error SM_MAX_LIVES and terminates.", "quantifier": "all request sizes up to the maximum of size_t", "why_tests_cant": "2^64 possible arguments; the failing ones need astronomically large stores to hit in a test", "anchors": ["ADOL-C/src/storemanager.cpp: StoreManagerLocintBlock::grow"]}
{"id": "C32", "title": "Tracing does not change the computed values", "statement": "Running a program with tracing switched on yields the same values, the same comparison outcomes and the same errors as running it in plain doubles; comparing an adouble with a constant or another adouble decides as the doubles do.", "quantifier": "all programs over the overloaded operators, all inputs, all parameter values, all libm implementations", "why_tests_cant": "every operator has several overloads with separate value computations; a slip shows only for particular operand values and locations", "anchors": ["ADOL-C/src/adouble.cpp", "ADOL-C/include/adolc/adtb_types.h", "ADOL-C/src/advector.cpp"]}
{"id": "C33", "title": "Return code 3 means the recorded selections are unchanged", "statement": "If a forward sweep returns 3, every fmin/fabs/ceil/floor/condassign/condeqassign at the new point selects the same operand (the same step) as when the trace was recorded.", "quantifier": "all traced programs and pairs of points", "why_tests_cant": "each selection is a separate test in a large switch; a missed one shows only when exactly that selection flips", "anchors": ["ADOL-C/src/uni5_for.cpp: min_op, abs_val, ceil_op, floor_op, cond_assign, cond_eq_assign, cond_assign_s, cond_eq_assign_s"]}
{"id": "C34", "title": "tensor_eval returns every partial derivative", "statement": "For every seed matrix S, degree d and number p of directions, tensor_eval stores at the position reported by tensor_address each partial derivative of order 1..d of F(x + S z) with respect to z, and F itself at position 0, whatever calls of tensor_eval with other sizes were made before (the interpolation coefficients are cached).", "quantifier": "all p, d, n, m, S, all functions, all histories of earlier calls", "why_tests_cant": "the coefficients are generated by nested multi-index loops and cached; an error shows for one multi-index or one call history only", "anchors": ["ADOL-C/src/drivers/taylor.cpp: coeff, tensor_eval, summand, convert, multma2vec2"]}
{"id": "C35", "title": "jac_solv solves with the Jacobian", "statement": "When jac_solv is called in mode 2 and returns a nonnegative code, the vector b has been replaced by the solution x of J(x0) x = b and J(x0) is nonsingular; a singular Jacobian is always reported by a negative code, and only a (nearly) singular one is refused. This holds for every series of calls on the same tag, although the factorisation is cached between calls.", "quantifier": "all dimensions, all Jacobians, all right hand sides, all series of calls (modes, points, dimensions) on one tag", "why_tests_cant": "the factorisation is cached in the tape's persistent data; a wrong answer needs a particular history of modes, points and failures, and the pivoting loops go wrong for particular matrices only", "anchors": ["ADOL-C/src/drivers/taylor.cpp: LUFactorization, GauszSolve, jac_solv"]}
{"id": "C36", "title": "A sweep evaluates the last trace recorded on the tape", "statement": "After trace_on(tag) ... trace_off() every sweep on that tag sees exactly the operations and parameters of this trace, whatever was recorded on the tag before, in memory or on disk.", "quantifier": "all series of traces on one tag, all operations, sizes and buffer sizes, all series of sweeps afterwards", "why_tests_cant": "statistics and files of the earlier traces survive in the tape; a wrong reuse needs a particular order of large and small traces and of trace_off flags", "anchors": ["ADOL-C/src/valuetape/valuetape.cpp: initTapeInfos_keep, close_tape, openTape", "ADOL-C/include/adolc/valuetape/tapeinfos.h: put_block"]}
{"id": "C37", "title": "Parameters set by set_param_vec are used by the following sweeps", "statement": "After set_param_vec(tag, n, p) with the number of parameters of the trace, every following sweep on the tag uses the values p, until they are set again or the tag is traced again; a call with another number is reported and leaves the tape usable with the old parameters.", "quantifier": "all traces, all parameter vectors, all series of sweeps and calls of set_param_vec", "why_tests_cant": "where the parameters are stored depends on buffer sizes, keep and the file flags; a lost update needs a particular combination", "anchors": ["ADOL-C/src/valuetape/valuetape.cpp: set_param_vec, read_params, save_params, openTape"]}
{"id": "C38", "title": "Vector forward mode returns the Jacobian times every direction", "statement": "fov_forward(tag, m, n, p, x, X, y, Y) returns the function values y, and for every direction l the column Y[.][l] is what fos_forward returns for the direction X[.][l] alone: the derivative of the function along X[.][l]. Directions do not influence each other.", "quantifier": "every program, point x, number p of directions, matrix X, contents of the uninitialised buffers", "why_tests_cant": "each opcode walks pointers through the directions with loops of its own, forwards or backwards; a test with one direction, or with the unit matrix, does not exercise the coupling between directions", "anchors": ["ADOL-C/src/uni5_for.cpp:fov_forward (_FOV_)", "ADOL-C/include/adolc/interfaces.h:fov_forward"]}
{"id": "C39", "title": "Vector reverse mode returns every weight vector times the Jacobian", "statement": "fov_reverse(tag, m, n, q, U, Z) after a forward sweep with keep: for every weight l the row Z[l] is what fos_reverse returns for U[l] alone, so Z = U times the Jacobian; with the unit vectors Z is the Jacobian. Rows do not influence each other.", "quantifier": "every program, point, number q of weights, matrix U, contents of the uninitialised buffers", "why_tests_cant": "the adjoint loops of every opcode run over all weights; tests with q = 1 cannot see a pointer that is not advanced", "anchors": ["ADOL-C/src/fo_rev.cpp:fov_reverse (_FOV_)", "ADOL-C/include/adolc/interfaces.h:fov_reverse"]}
{"id": "C40", "title": "The counts of a trace are right and the sweeps use exactly that many values", "statement": "The numbers of independents, dependents, switches, fused products and Taylor values reported by tapestats after trace_off are those of the last finished trace of the tag. A sweep is accepted exactly for these n and m; a forward sweep reads only x[0..n-1], returns m values and keeps at most the reported number of Taylor values; a reverse sweep writes results[0..n-1] only and uses only the m weights.", "quantifier": "all programs, all inputs, all histories of trace_on, recordings, trace_off and sweeps on a tape", "why_tests_cant": "users allocate their arrays with these counts; a miscounted operation, or a counter that survives from an earlier trace, overruns an array only for programs with that operation or that history", "anchors": ["ADOL-C/include/adolc/valuetape/valuetape.h: increment_numInds, increment_numDeps, add_num_eq_prod", "ADOL-C/src/valuetape/valuetape.cpp: stop_trace, initTapeInfos_keep", "ADOL-C/src/adouble.cpp", "ADOL-C/src/tape_interface.cpp: tapestats"]}
{"id": "C41", "title": "trace_on is refused only while the tape is in use", "statement": "trace_on(tag) is accepted if and only if no trace is open on the tag, trace_off if and only if one is; a sweep that is refused because of its arguments leaves the tape as it was.", "quantifier": "all histories of trace_on, recordings, trace_off and sweeps, accepted or refused, on a tape", "why_tests_cant": "the tape's mode depends on the whole history of calls, including those that ended with an exception", "anchors": ["ADOL-C/src/valuetape/valuetape.cpp: initNewTape, openTape, end_sweep", "ADOL-C/src/uni5_for.cpp:1095-1107", "ADOL-C/src/fo_rev.cpp:451-463"]}
{"id": "C42", "title": "Every sweep performs the recorded operations with every operand in its role", "statement": "What the operators write on the operation, location and constant streams for an operation is read back by every forward and every reverse sweep as that operation: same operator, same operands in the same roles, same constants, in recording order forward and in the opposite order backward; fused products are read as what they replaced.", "quantifier": "all programs, all arithmetics, all buffer sizes, all series of forward and reverse sweeps, every opcode of the model", "why_tests_cant": "about a hundred opcodes are each laid out by one function and taken apart by two others written by hand; a swapped or skipped operand shows only for some opcodes and shifts everything that follows", "anchors": ["ADOL-C/include/adolc/oplate.h: enum OPCODES", "ADOL-C/src/adouble.cpp: put_op/put_loc/put_val calls", "ADOL-C/src/advector.cpp", "ADOL-C/src/uni5_for.cpp: get_locint_f/get_val_f calls", "ADOL-C/src/fo_rev.cpp, ho_rev.cpp: get_locint_r/get_val_r calls"]}
{"id": "C43", "title": "Higher order reverse mode returns the Taylor coefficients of the adjoint along the curve", "statement": "hos_forward with keep = d+1 along a curve x(s) followed by hos_ti_reverse with the Taylor coefficients of weights u(s) returns, for every independent i, the coefficients up to degree d of the function s -> d(u(s).F)/dx_i (x(s)), writes no other result, and leaves the Taylor stack empty; keeping the coefficients does not change what hos_forward returns.", "quantifier": "all recorded programs of smooth operations, all curves, weights, degrees, points of re-evaluation, and all left-over contents of the work arrays", "why_tests_cant": "the sweep mixes convolutions, in-place updates, flags and a stack of coefficients; an error at one opcode, degree or aliasing pattern shows only for some programs", "anchors": ["ADOL-C/src/ho_rev.cpp: hos_reverse, hos_ti_reverse", "ADOL-C/src/convolut.cpp", "ADOL-C/src/uni5_for.cpp: hos_forward with keep"]}
{"id": "C44", "title": "The Hessian drivers return second derivatives of the recorded program", "statement": "lagra_hess_vec returns (d/dx)^2 (u.F)(x) v, hess_vec returns H(x) v for a scalar program, and hessian fills the lower triangle with the second partial derivatives of the program the user wrote, at every argument at which the recorded comparisons come out as recorded; the rest of the result array is untouched.", "quantifier": "all recorded programs of smooth operations, all points, directions, weights and all left-over contents of the sweep buffers", "why_tests_cant": "second derivatives come from a first order forward sweep with keep = 2 and a second order reverse sweep composed over every operation of the program", "anchors": ["ADOL-C/src/drivers/odrivers.cpp", "ADOL-C/src/drivers/drivers.cpp: hess_vec, lagra_hess_vec, hessian", "ADOL-C/src/ho_rev.cpp", "ADOL-C/src/uni5_for.cpp: fos_forward with keep = 2"]}
{"id": "C45", "title": "forode extends the Taylor series of the solution of the differential equation", "statement": "Given a trace of F with as many dependents as independents and rows Y that hold the Taylor coefficients up to degree dold of the solution of x' = tau F(x), forode returns with a non-negative code and rows that hold the coefficients up to degree dnew; it touches nothing else.", "quantifier": "all recorded programs of smooth operations, all solutions, dimensions, degrees, scalings and left-over contents of the work arrays", "why_tests_cant": "each new coefficient comes from a sweep over the coefficients found so far, with the rows shifted in place; a wrong index or factor shows only at some degree", "anchors": ["ADOL-C/src/drivers/odedrivers.cpp: forodec", "ADOL-C/include/adolc/drivers/odedrivers.h: forode"]}
{"id": "C46", "title": "accode turns the partial Jacobians of a Taylor step into the total ones", "statement": "accode fills B with the Taylor coefficients of the fundamental matrix of the variational equation P' = tau J P, P(0) = 1, when A holds the coefficients of J; the sparsity array changes nothing in B and on return bounds the coefficients that vanish.", "quantifier": "all dimensions, degrees, scalings, coefficient tensors and all sparsity arrays that describe A", "why_tests_cant": "the recurrence couples all degrees; the sparse variant skips terms according to an array it updates while it runs", "anchors": ["ADOL-C/src/drivers/odedrivers.cpp: accodec", "ADOL-C/include/adolc/drivers/odedrivers.h: accode"]}
{"id": "C47", "title": "The forward bit pattern of the Jacobian has every dependence and nothing but chains of operations", "statement": "jac_pat with bit pattern propagation, forward, safe or tight, returns rows such that a result cannot change between two arguments that agree on the columns of its row (and take the same decisions); every column listed is joined to its result by a chain of recorded operations; rows are increasing with all columns below the number of independents; with at most 30 words of independents it returns rows.", "quantifier": "all tapes, word widths, numbers of independents and dependents (hence all numbers of strips), all pairs of arguments", "why_tests_cant": "a missing column depends on the position of a variable within the words and strips and on the operations in between; tests see only a few positions", "anchors": ["ADOL-C/src/uni5_for.cpp: int_forward_safe, int_forward_tight", "ADOL-C/include/adolc/sparse/sparsedrivers.h: BitVectorPropagation, jac_pat", "ADOL-C/src/sparse/sparsedrivers.cpp: extract"]}
{"id": "C48", "title": "The reverse bit pattern of the Jacobian has every dependence and nothing but chains of operations", "statement": "jac_pat with bit pattern propagation, reverse (or automatic), safe or tight, returns rows such that a result cannot change between two arguments that agree on the columns of its row (and take the same decisions); every column listed is joined to its result by a chain of recorded operations; all rows are allocated and increasing with all columns below the number of independents, for any number of strips.", "quantifier": "all tapes, word widths, numbers of independents and dependents, all pairs of arguments, all left-over contents of the result rows and of the values of the reverse sweep", "why_tests_cant": "the reverse sweep passes rows back through overwritten and shared locations and, in the tight variant, decides with values restored from the Taylor stack", "anchors": ["ADOL-C/src/fo_rev.cpp: int_reverse_safe, int_reverse_tight", "ADOL-C/include/adolc/sparse/sparsedrivers.h: BitVectorPropagation, jac_pat", "ADOL-C/src/sparse/sparsedrivers.cpp: extract"]}
{"id": "C49", "title": "Several Taylor polynomials at once give what each gives alone", "statement": "hov_forward with p directions and degree d yields, for every direction, exactly the values and coefficients that hos_forward yields for that direction alone, in any arithmetic; over the reals these are the Taylor coefficients of the recorded function along that direction.", "quantifier": "all recorded programs, numbers of directions, degrees, points, directions and prior memory contents", "why_tests_cant": "loops over p directions move shared pointers through rows of p*d coefficients; an error in one direction depends on the operations and values of another", "anchors": ["ADOL-C/src/uni5_for.cpp: hov_forward (_HOV_)", "ADOL-C/include/adolc/interfaces.h: hov_forward, forward"]}
{"id": "C50", "title": "tensor_eval on a trace returns the derivative tensors of the program", "statement": "tensor_eval(tag,m,n,d,p,x,tensor,S) on the trace of a program stores, for every output, the value and all partial derivatives up to order d with respect to z of F(x+S z) at z = 0 at the positions tensor_address reports; no hypothesis about the sweeps is left.", "quantifier": "all recorded programs, points, orders d, numbers p of seed directions, seed matrices and histories of earlier tensor_eval calls", "why_tests_cant": "composes interpolation over all directions, blocks of at most ten directions, the vector sweeps and a cache that persists between calls", "anchors": ["ADOL-C/src/drivers/taylor.cpp: tensor_eval, multma2vec2, multma3vec2", "ADOL-C/src/uni5_for.cpp: fov_forward, hov_forward", "ADOL-C/include/adolc/drivers/taylor.h: tensor_eval"]}
{"id": "C51", "title": "hov_wk_forward with hos_ov_reverse, hess_mat and hessian2", "statement": "hov_wk_forward with p Taylor polynomials followed by hos_ov_reverse with one weight returns, for every polynomial, what hos_forward and hos_ti_reverse return for it alone: the Taylor coefficients of every partial derivative of u.F along the polynomial.  hess_mat(tag,n,q,x,V,W) stores in column l of W the Hessian times column l of V and hessian2 stores the second partial derivatives in the lower triangle of H; nothing else is written.", "quantifier": "all recorded programs, points, degrees, numbers of directions, directions, weights and contents of the uninitialised buffers", "why_tests_cant": "a pointer that is not advanced in one direction, or a value stack frame read in the wrong order, shows only with several directions, particular programs and nonzero adjoint flags", "anchors": ["ADOL-C/src/uni5_for.cpp: hov_wk_forward", "ADOL-C/src/ho_rev.cpp: hos_ov_reverse", "ADOL-C/src/valuetape/tapeinfos.cpp: write_taylors, get_taylors_p", "ADOL-C/src/drivers/drivers.cpp: hess_mat, hessian2"]}
{"id": "C52", "title": "hov_ti_reverse and hov_reverse: one Taylor polynomial, several weights", "statement": "hov_ti_reverse with p weight rows after one forward sweep returns in row l what hos_ti_reverse returns for the weights of that row: the Taylor coefficients of every partial derivative of u_l.F along the polynomial; hov_reverse does the same for constant weights.  nonzero[l][i] is 0 only if all coefficients results[l][i][.] are 0.", "quantifier": "all recorded programs, points, degrees, numbers of weight rows, weights and contents of the result arrays before the call", "why_tests_cant": "a pointer not advanced in one row, or a flag cleared too early, shows only with several rows, particular programs and particular zero patterns of the adjoints", "anchors": ["ADOL-C/src/ho_rev.cpp: hov_ti_reverse, hov_reverse", "ADOL-C/include/adolc/interfaces.h: hov_reverse, hov_ti_reverse"]}
{"id": "C53", "title": "Lie derivative drivers", "statement": "lie_scalar returns the Lie derivatives L_f^k h(x0), k = 0..d, of every component of h along the vector field f; lie_gradient returns their gradients; lie_covector returns the Lie derivatives of a covector field; lie_bracket returns the iterated Lie brackets ad_f^k g(x0); each for the functions computed by the traced programs, and nothing outside of the result range is written.", "quantifier": "all recorded programs for f, h, the covector field and g, numbers of variables and functions, points, degrees, contents of the result arrays and of the uninitialised memory of the sweeps", "why_tests_cant": "the k-th derivative involves convolutions over all lower Taylor coefficients and Jacobians; a wrong index range or factorial shows only for particular degrees and dimensions, and tests compare two or three closed forms", "anchors": ["ADOL-C/src/lie/adolc_lie_c.cpp: lie_scalarcv, lie_scalarc, lie_gradientcv, lie_gradientc, lie_covector, lie_bracket, accodeout, acccov, accadj, accbrac", "ADOL-C/src/drivers/odedrivers.cpp: forodec, accodec", "ADOL-C/include/adolc/lie/drivers.h"]}
{"id": "C54", "title": "The traceless sparsity pattern is never too small", "statement": "After ADOLC_Init_sparse_pattern and a run of the user's function on adtl_indo::adouble objects, ADOLC_get_sparse_pattern returns for every result a sorted list without duplicates of the inputs it depends on: two runs that take the same branches and agree on the inputs in the pattern give the same value, a nonzero partial derivative is in the pattern, and every index in the pattern comes from a chain of executed operations.", "quantifier": "all programs over the overloaded operators and functions (with any comparisons and plain reads), all arithmetics, all points, numbers of inputs and start indices", "why_tests_cant": "a missed merge or a lost list in one operator shows only when that operator is the sole path from an input to a result; no finite set of programs covers all paths and aliasing patterns", "anchors": ["ADOL-C/include/adolc/adtl_indo.h: adouble, add_to_pattern, operators and functions", "ADOL-C/src/adouble_tl_indo.cpp: ADOLC_Init_sparse_pattern, ADOLC_get_sparse_pattern"]}
{"id": "C55", "title": "Traces with externally differentiated functions", "statement": "A program that calls call_ext_fct is recorded with the values it has without ADOL-C, whatever the callback does to ADOL-C's own state; replaying the trace at another point computes what the program computes there, returning the least callback code; fos_forward through the calls gives the derivative of the program; fos_reverse restores every value, uses exactly the kept values and gives the transpose, so its result is the gradient of the weighted outputs.", "quantifier": "all programs of operations and calls (any number, sizes, functions and callbacks meeting the documented contract, each registered function on one set of variables), all recording and evaluation points, directions and weights", "why_tests_cant": "callbacks are arbitrary user code, and which kept value or which location a sweep uses depends on the whole sequence of calls before and after", "anchors": ["ADOL-C/src/externfcts.cpp: call_ext_fct, call_ext_fct_commonPrior, call_ext_fct_commonPost, check_input", "ADOL-C/include/adolc/externfcts.h: ext_diff_fct", "ADOL-C/src/uni5_for.cpp: ext_diff", "ADOL-C/src/fo_rev.cpp: ext_diff, ext_diff_iArr"]}
{"id": "C56", "title": "Fixed-point iterations give the fixed point and its derivative", "statement": "fp_iteration and later sweeps return k > 0 only if the k-th step is the first one below the tolerance, and then the value is within q/(1-q) eps of the fixed point; they do return k > 0 when N_max is large enough for the contraction; fos_forward returns tangents, and fos_reverse adjoints of the parameters, within an explicit multiple of the tolerances of the derivative of the fixed point, whatever the uninitialised work array contains; a sweep finds the data of its own call.", "quantifier": "all contracting iterations on all regions, norms, tolerances, step limits, start values, tangents and weights", "why_tests_cant": "convergence and the error bound are statements about all contractions and tolerances, not about the one iteration a test runs", "anchors": ["ADOL-C/src/fixpoint.cpp: fp_iteration, iteration, fp_zos_forward, fp_fos_forward, fp_fos_reverse, fpi_stack"]}
{"id": "C57", "title": "sparse_jac returns the Jacobian, also in repeated calls", "statement": "Every call of sparse_jac (row or column compression, safe or tight index domains, memory handled by the library or by the user) that is the first one for its trace returns the code of the forward sweep and lists, row by row, every position of the pattern once with the partial derivative there, all other partial derivatives being zero; after any history of calls with one compression mode and the safe pattern, including failed ones, a call that returns a nonnegative code does the same, none reads through a null pointer, and a repeated call after a successful first one succeeds; repeat without a first call returns -3.", "quantifier": "all recorded traces, points, compression modes, colourings, sizes, histories of calls and contents of uninitialised memory", "why_tests_cant": "the compressed Jacobian is only decompressed correctly if the pattern covers all nonzeros at that point and the colouring fits the pattern kept in the tape; a test checks one trace, one colouring and one history", "anchors": ["ADOL-C/include/adolc/sparse/sparsedrivers.h: sparse_jac, buildJacPatternAndSeed, computeSparseJac, ensureSparseJacCacheInitialized, validateManualStorage", "ADOL-C/src/valuetape/sparseinfos.cpp: recoverRowFormatUserMem, recoverColFormatUserMem"]}
