# Formal model of ADOL-C in Rocq (Coq 8.16.1)

## Approach

The model is a set of Gallina definitions transcribed function by function from
`/repo/ADOL-C`; every definition cites the file and lines it models and states
its simplifications.  Theorems quantify over all inputs / histories / sizes.

Layout (`rocq/theories`), per subsystem X:

* `XModel.v` – transcription of the C++ code (the program),
* `XSpec.v` – small specification vocabulary that does not use the model's helpers,
* `XProofs.v` (and further files) – lemmas and invariants,
* `XProps.v`, `XEx.v` – the property theorems and the concrete cases that meet
  their hypotheses.

Where the English property is *false of the code*, the model keeps the code as
it is; the file proves a `_refuted` theorem (the negation for a concrete witness,
often for a whole family) and the strongest positive theorem under an explicit
guard.  A guard is always a decidable or elementary condition on the user's
program or data, never on intermediate states of the model, unless said otherwise.

Arithmetic: `AdModel.v` is parametric in a record `Arith` of operations with no laws.
Value theorems hold for every `Arith`, hence for IEEE binary64 (`Binary64.v`,
Flocq; the transcendental functions are arbitrary functions there).  Derivative
theorems are for the instance `reals` (exact arithmetic).  Memory that the C++
code leaves uninitialised is an arbitrary function in the theorems.

## Properties: what is modelled, how it is proved

| id | modelled code | method |
|----|---------------|--------|
| C01–C04 | `StoreManagerLocintBlock` (storemanager.cpp) | state machine over block list and store array; invariant over all client histories: live ++ free is a permutation of [0,max) |
| C05 | `StoreManagerLocint` | chain from head ++ live is a permutation of [1,max) |
| C06, C07 | tape buffers, block files, writers and readers (tape_handling, oplate/value/loc tapes) | simulation writer history / block structure, induction over recorded operations, all buffer capacities; series of forward and reverse sweeps |
| C08 | Taylor stack with spill file | stack refinement over all histories |
| C09, C10 | trace_on / trace_off, tape registry and tape stack | induction over nesting; the overload of trace_on with sizes (C10) is false of the code, its negation is proved |
| C11–C13, C17, C27, C32, C33 | the operators of adouble.cpp as a recorder, `zos_forward`, parameters, comparisons, selection functions | simulation recorder / interpreter / plain evaluation over all programs (trees with branches) |
| C14 | `fos_forward` | chain rule along every differentiable curve, induction over the tape (Coquelicot `is_derive`) |
| C15 | `fos_reverse` with the value stack | transposition invariant <A,T> over the tape; program check `prog_ok` implies the invariant's side conditions |
| C16 | keep / Taylor stack | the reverse sweep restores every value, any arithmetic |
| C18 | `indopro_forward` safe / tight, jac_pat | non-interference (values) and vanishing derivative |
| C19 | `nonl_ind_forward`, hess_pat | vanishing second differences and mixed derivatives, shape |
| C20 | adtl.h | one-sided derivative along every curve, all programs with branches |
| C21 | `hos_forward` | truncated Taylor expansion along every curve, per opcode coefficient loop |
| C22, C34 | tensor_address, binomi, tensor_eval and helpers (taylor.cpp, interpolation matrices) | combinatorial number system; polynomial interpolation identity |
| C23 | revolve.c | invariant over the snapshot stack; optimality among all schedules |
| C24 | checkpointing.cpp | composition of step adjoints under the revolve schedule |
| C25 | convolut.cpp | truncated power series, aliasing conditions |
| C26 | drivers.cpp | index reasoning over the contracts of the sweeps |
| C28, C29 | adalloc.c, fortutils.cpp | offsets arithmetic, 64 bit data model |
| C30 | psdrivers.cpp, abs-normal branches of uni5_for.cpp and fo_rev.cpp, absnormalform.h | adjoint identity of the cut-open function, chain rule, affine exactness |
| C31 | growth of the block manager in 64-bit arithmetic | requests up to 2^63 served, agreement with the unbounded model; error report refuted |
| C35 | LUFactorization, GauszSolve, jac_solv (taylor.cpp) | invariant P A Q = L U of the elimination over permuted indices; induction over the series of calls |
| C36 | tapes traced several times (valuetape.cpp, tapeinfos.h) | state of the tape between traces; invariant `closed` of C06 re-established by every trace |
| C37 | set_param_vec, read_params, openTape | induction over the history of calls; read_params finds the last values of the file block by block |
| C38 | fov_forward (uni5_for.cpp, _FOV_): dpp_T as location x direction, every opcode's loop over the directions | simulation: projecting a vector sweep to one direction is a scalar sweep; composed with C14 |
| C39 | fov_reverse (fo_rev.cpp, _FOV_) | the same projection for the reverse sweep; composed with C15 |
| C40 | the counters of valuetape.h, what every recording function adds to them, stop_trace, the argument checks of the sweeps | induction over the trace; invariant of the recorder; invariant over histories of calls |
| C41 | initNewTape, openTape, end_sweep, and the exceptions of the sweeps | invariant over histories |
| C42 | oplate.h enum; the put_* calls of every operator; the get_* calls of every case of the forward and reverse switches | case analysis per opcode, composed with C06/C07 (streams) and the recorder |
| C43 | ho_rev.cpp with _HOS_ (hos_reverse, hos_ti_reverse), hos_forward with keep | per opcode: the update of the adjoint rows is the transpose of the truncated Taylor propagation; induction over the trace with C21 |
| C44 | fos_forward with keep = 2, hess_vec, lagra_hess_vec, hessian | C43 at degree 1 along the line x + s v, composed with the drivers of C26 and the recorder |
| C45 | forodec statement by statement, on top of zos_forward (C11) and hos_forward (C21) | induction over the degree: C21 gives the coefficients of F(x(s)), integration the next one |
| C46 | accodec, both variants, with the arrays A and B possibly the same | invariant over the three nested loops; for the sparse variant an invariant about the array nonzero while it is updated; power series of the variational equation |

| C47 | int_forward (safe and tight, bit patterns), BitVectorPropagation forward, extract | each bit of the words is a homomorphic image of a one-bit sweep; the one-bit sweeps form an invariant "values agree unless a set column differs"; strips by induction |
| C48 | int_reverse (safe and tight, bit patterns), BitVectorPropagation reverse, extract | duality: what a forward one-bit sweep reaches meets what the reverse sweep marks, one operation at a time; the Taylor stack through C13's restore lemmas || C49 | hov_forward (uni5_for.cpp, _HOV_): rows of p*d coefficients, the pointers Tres/Targ that walk up or down them | projection of the rows to one direction simulates the sweep of hos_forward, opcode by opcode; composed with C21 |
| C50 | tensor_eval with fov_forward/hov_forward of the models on a recorded trace | Taylor's formula in several variables along a line (induction over the order, sums over exponent vectors), composed with C34, C38, C49 |
| C51 | hov_wk_forward (keep), write_taylors/get_taylors_p, hos_ov_reverse, with hess_mat/hessian2 of C26 | projection to one direction: an invariant relates the interleaved stack frames, the per-direction blocks and the place of the shared pointers (live) to the scalar sweep; then composed with C43 |
| C52 | hov_ti_reverse, hov_reverse (ho_rev.cpp, _HOV_) with the result and nonzero arrays | projection of every row to the scalar sweep (C52_rows), composed with C43; invariant "flag 0 implies adjoint row 0" over all opcodes for the pattern |
| C53 | the Lie drivers and their series loops (adolc_lie_c.cpp) on top of forodec (C45), accodec (C46), hos_forward (C41), hov_reverse (C52) | the loops are shown to be convolutions (LieLoops), a series lemma turns the recursion of the Lie derivatives along the solution into these convolutions (LieCore), the drivers are composed from C45, C46, C41, C52 (LieDrv) |
| C54 | adtl_indo.h (all operators, functions, assignments), ADOLC_Init_sparse_pattern, ADOLC_get_sparse_pattern, std::list merge/unique | two-run (noninterference) relation kept by every call; sortedness of merge and unique; chains by induction over the run |
| C55 | call_ext_fct, the ext_diff cases of zos/fos_forward and fos_reverse, the location fields of ext_diff_fct | fold over the program; curves (is_derive) for the tangents, dot-product identity step by step for the adjoints; examples exP_meets, exP_gradient |
| C56 | fixpoint.cpp (whole file) | a posteriori Banach estimate for any metric norm; for the reverse the affine adjoint map and the dot-product identity; scalar example x/2 + u^2 meets all hypotheses |
| C57 | sparse_jac (index domains), recovery from the compressed Jacobian, data kept in the tape | pattern covers the nonzeros (C18), vector sweeps give B (C38, C39), a partial distance-2 colouring makes B[i][c j] one entry; invariant `reached_states` over all histories; example with two colours for three columns |

## Guards used in theorem statements

* `sizes_ok`, `reverse_ok`, `acts_ok` (C06, C07): buffer sizes within the ranges in
  which the writers do not overflow; parameters inside the last value block.
* `legal`, `fits` (C08), `legal`, `idle` (C09): the client only does what the manual
  allows (balanced trace_on/off); block not longer than the buffer.
* `wellbehaved`, `allowed`, `ordered` (C11–C14, C32): the program reads only live
  variables, does not compare NaN, and avoids the calls refuted in C11/C27.
* `prog_ok` / `tidy` (C14, C15): decidable check of the program (each input and
  output declared once, no reads of declared outputs, ...).  `fprog`: scalar calls.
* `smooth`, `smooth_run`, `regular` (C14, C15, C21): every elementary operation is
  differentiable where the sweep evaluates it.
* `undoable`, `keepable`, `scalar` (C16).
* `patternable`, `decisions`, `no_pow_at_zero` (C18); `hpatternable`, `piece`,
  `assigned`, `kept_out` (C19).
* `good`, `clean`, `legal` (C20): domain of the elementary function.
* `taylor`, `joined`, `path` (C21): the input coefficients belong to the curve.
* `within`, steps * 2000 <= MAXINT (C23); `admissible`, `faithful`, `reusable` (C24:
  the sweeps of the one-step tape are a hypothesis, justified by C11–C16).
* `apart`, `apart_or_same` (C25): placement of the arrays.
* `exact1`, `exact2`, `fits` (C26: what a sweep returns at the point; `exact1` is proved for recorded programs in DrvTrace under `smooth_run` and `same_branches`).
* `grant`, byte size < 2^64 (C28).
* `derivative`, `reachable`, fuel (C22, C34).
* `recorded`, `smooth_but_abs`, `piecewise_linear` (C30).
* `reliable` (C35): the sweeps of the tape return the Jacobian when their codes are not negative (C12, C15); `in_order`: see the refutations.
* `definite` (C33): no value a selection looks at is a NaN (an unordered comparison has no side).
* `no_stale` (C36, C37): every stream that has a file from an earlier trace is written to file again by the last trace (necessary: `C36_stale_files_refuted`).
* `all_files st = false` (C37): not all three streams of the trace are on disk (necessary: `C37_disk_refuted`); `sized`: set_param_vec gets as many values as the trace has parameters.

* `logs_fine` (C38): no logarithm is evaluated at 0 (necessary: `C38_log_at_zero_refuted`); implied by `smooth_run` in C38_jacobian_product.
* `no_subscript` (C39): no element of an advector is read (necessary for two or more weights: `C39_subscript_refuted`).
* `no_vec_product`, `without_vec_products` (C40): no adolc_vec_dot, adolc_vec_axpy (necessary: `C40_vec_dot_refuted`); `stock_from_zero`: the final keep_stock starts at location 0, proved for every recording (C40_recording).
* `rejections h bs = false` (C41): no sweep of the history was refused (necessary: `C41_rejected_sweep_refuted`).
* `acts_of_all` (C42): the put_op/put_loc/put_val and patch calls of the recorded operations; `C42_recording_exists` shows that every recorded program has them. `reverse_ok` as in C07.
* `reverse_ok` of HrvProps (C43, C44): no cbrt, ceil, floor operation and the argument of pow further from 0 than the threshold (necessary: `C43_pow_refuted`, `C43_floor_refuted`; cbrt throws, ceil writes through a left-over pointer).
* `same_branches_along` (C44): near s = 0 the replay on the line x + s v takes the recorded branches.
* `same_branches_on` (C45): near s = 0 the program takes the recorded branches on the solution.
* `a <> b`, `0 <= z i j` (C46): different arrays, no negative entries in nonzero (necessary: `C46_in_place_refuted`, `C46_negative_entry_refuted`); `describes`: the condition on nonzero in the comment of accodec.
* `fwd_keeps`, `no_tie` (C47), `rev_keeps`, `traceable`, `tight_ok` (C48): the operations on which a bit pattern sweep keeps every dependence (necessary: the refutations named in the manifest; a constant result has a null row: `C47_constant_row_null_refuted`; more than 30 words: `C47_many_independents_crash_refuted`).
* C49: `dirs_fine` excludes log at argument 0 (the infinity `divs` chosen for one direction is kept for all later directions) and pow at base 0 where the code returns early without moving the row pointer; both are refuted outside the guard with binary64 witnesses (`C49_log_at_zero_refuted`, `C49_pow_at_zero_refuted`).
* C51: `directions_ok` asks that on the way back hos_ov_reverse meets no vec_axpy (no loop over the directions, ho_rev.cpp:2513-2547), no floor whose result has an adjoint, no eq_plus_prod/eq_min_prod whose result has none (the recomputation then runs p times on direction 0, ho_rev.cpp:998-1024; C51_dead_product_refuted) and no minimum of two equal values. `ordinary_fine` gives a condition on the opcodes alone. log/pow at 0 are excluded by smoothness (C49).
* C52: `row_fine` asks that on the way back hov_reverse meets no vec_axpy (no loop over the rows, ho_rev.cpp:2513-2547), no floor or ceil whose result has an adjoint and no fabs whose result has an adjoint in a row other than the first (the arrays x and jj have one entry, ho_rev.cpp:450-451, 1796-1806). `rowwise_fine` gives a condition on the opcodes alone. C52_pattern needs only that no vec_axpy is in place (result = vec_y), where ARES = 0.0 after MAXDEC(AARG2, ARES) clears the flag of a live adjoint (ho_rev.cpp:2529-2531; C52_inplace_refuted).
* C53: the specification (LieSpec) is the recursion of the manual with total derivatives along curves (`gradient`); lie_gradients also asks for symmetric second derivatives. Hypotheses: a solution X of x' = f(x) with X(0) = x0 exists, no curve leaves the domain O at once, the traces take the recorded branches on O, `reversible` is the guard of C43/C52 for the reverse sweeps. d > 1 for the gradient and the covector because with d == 1 the drivers hand Taylor rows that still contain x0 in column 0 to the sweep (adolc_lie_c.cpp:306-311, 426-429; C53_d1_refuted); d <= 12 because of `int Fak` (69-72, 146-149; C53_overflow_refuted). All drivers return -1 whatever happens (228, 344, 460, 527): the return code says nothing and is left out of the model.
* C54: decisions (comparisons, the sign of fmax/fmin/condassign, values of ceil/floor, plain reads) are logged by the run and must agree in the two runs: this is what "the same branches" means, as the pattern is that of the branch taken. `legal` excludes self-assignment, for which operator= (adtl_indo.h:727-733) clears the pattern it is about to read (C54_self_assignment_refuted; also through condassign(x, c, x, y), 692-698).
* C55: `contract` is what externfcts.h documents for the callbacks; `one_place` is needed because firstIndLocation/firstDepLocation are overwritten by every call and the tape stores only (index, n, m) (C55_two_places_refuted: the comment at externfcts.cpp:67-69 claims reuse is correct); `disjoint_call`: for in-place calls no value-driven reverse callback can serve both kinds of call (C55_in_place_refuted) and the iArr variant returns zero adjoints (C55_iarr_in_place_refuted); `adjoint_ok` asks the callback to add to z, the header's "z = transpose(u) * Jacobian" read literally fails (C55_overwriting_refuted). The ordinary operations are generic elementals here; their own correctness is C14/C15.
* C56: `contracts` (a region mapped into itself, factor q < 1) is what convergence means; C56_tangent's L is the Lipschitz constant of the sub tape's tangent sweep in x on the true tangent; the tangent sweep being the derivative and the reverse sweep its transpose are C14 and C15 for the sub tape. C56_reverse is about the point the sub tape has kept: C56_stale_refuted shows that after zos_forward alone this is not the current point; C56_registered needs the index to be new in the table, which two tapes violate (C56_two_tapes_refuted).
* C57: `sweeps_right` collects what C18 and C38 ask for (patternable trace, smooth run, no change of branch for the tight pattern); `colours_right` is ColPack's contract, which is not part of the repository. Histories keep one compression mode and the safe pattern: C57_other_mode_refuted and C57_tight_at_new_point_refuted show why. When jac_pat gives up the model nulls all rows (the code keeps those before the failure), which matters only for C57_failed_first_call_refuted, where the first row is null in the code as well.

## Modelled / not modelled

Modelled: storemanager.cpp, the buffer and file layer of the tapes, tape registry,
adouble.cpp (operators, as recorder), uni5_for.cpp (zos, fos, hos, indopro safe/tight,
nonl_ind safe/tight, pl), fo_rev.cpp (fos, pl, pl_sig), convolut.cpp, drivers.cpp,
taylor.cpp (tensor part and helpers), revolve.c, checkpointing.cpp, adalloc.c, fortutils.cpp,
psdrivers.cpp (abs_normal), adtl.h,
taylor.cpp (jac_solv and its linear solver),
valuetape.cpp (retracing, openTape, read_params, set_param_vec),
uni5_for.cpp and fo_rev.cpp with _FOV_ (fov_forward, fov_reverse),
valuetape.h and valuetape.cpp (counters, work mode), tape_interface.cpp (trace_on, trace_off),
oplate.h (numbers of the operations) and the operand order of every recorded operation in adouble.cpp, advector.cpp, uni5_for.cpp, fo_rev.cpp,
ho_rev.cpp with _HOS_ (hos_reverse, hos_ti_reverse; not the return code, ext_diff),
drivers/odedrivers.cpp (forodec, accodec),
uni5_for.cpp and fo_rev.cpp with _INT_FOR_/_INT_REV_ (int_forward_safe/tight, int_reverse_safe/tight, one word row per variable), sparse/sparsedrivers.h and .cpp (bit pattern propagation; not index domains through this driver, not ColPack),
hov_forward (HovModel.v: every opcode of the real-valued tape; no external functions),
hov_wk_forward with keep = degree + 1 and hos_ov_reverse (ho_rev.cpp, _HOS_OV_) incl. the interleaved Taylor stack frames (VrvModel),
hov_ti_reverse and hov_reverse (ho_rev.cpp, _HOV_) incl. nonzero (HvrModel),
the Lie derivative drivers (lie/adolc_lie_c.cpp; the Taylor stack read by hov_reverse is taken to be the one of the last pass of forodec; an early negative return code of forodec is None) (LieModel),
the traceless sparsity type adtl_indo::adouble (adtl_indo.h, adouble_tl_indo.cpp; without i/o) (IndoModel),
external functions (externfcts.cpp call_ext_fct, uni5_for.cpp and fo_rev.cpp ext_diff; not ext_diff_v2, not the FOV and higher-order callbacks) (ExtModel),
fixed-point iterations (fixpoint.cpp; the inner tape by its input-output behaviour) (FixModel),
sparse_jac with index domains and the data it keeps (sparsedrivers.h, sparseinfos.cpp; ColPack by its contract) (SjModel).

Not modelled: MPI, medipack, OpenMP, Fortran entry points beyond fortutils,
ADOL-C/src/sparse colouring (ColPack is not part of the repository), the Python and
Julia wrappers, printing (tape_doc), adtl_hov/adtl_indo traceless variants of higher
order, file system failures except where a property names them, signals and
concurrency (the library is single threaded without OpenMP).

Simplifications that run through the model: operating system calls succeed; int
overflow is modelled only where a theorem mentions it; the encoding of an operation on
the op/loc/val tapes (C06, C07) and its interpretation (C11 ff.) are two models joined
by C42 (every sweep over the streams performs exactly the operations of the trace).

## Trusted base

* The Coq 8.16.1 kernel (`vcheck` re-checks).
* The axioms listed below by `Print Assumptions`; all are axioms of the standard
  library (classical reals, functional extensionality, classic).
* The fidelity of the hand transcription of the C++ code into the `*Model.v` files.
* That the `*Spec.v` definitions say what the English property says.

`Print Assumptions`, per theorem of MANIFEST.json.  A = functional_extensionality_dep,
B = ClassicalDedekindReals.sig_forall_dec, C = ClassicalDedekindReals.sig_not_dec,
D = Classical_Prop.classic, `-` = closed under the global context.

| property | theorem | file | axioms |
|---|---|---|---|
| C01 | `C01_no_failure` | StoreProps.v | - |
| C01 | `C01_live_distinct` | StoreProps.v | - |
| C01 | `C01_fresh` | StoreProps.v | - |
| C02 | `C02_contiguous` | StoreProps.v | - |
| C03 | `C03_read_last_write` | StoreProps.v | - |
| C04 | `C04_count` | StoreProps.v | - |
| C04 | `C04_no_leak` | StoreProps.v | - |
| C05 | `C05_no_failure` | StoreProps.v | - |
| C05 | `C05_live_distinct` | StoreProps.v | - |
| C05 | `C05_range` | StoreProps.v | - |
| C05 | `C05_read_last_write` | StoreProps.v | - |
| C05 | `C05_count` | StoreProps.v | - |
| C05 | `C05_block_request_rejected` | StoreProps.v | - |
| C31 | `C31_fitting_request_served` | StoreProps.v | - |
| C31 | `C31_other_requests` | StoreProps.v | - |
| C31 | `C31_nontrivial` | StoreProps.v | - |
| C31 | `C31_too_many_locations_refuted` | StoreProps.v | - |
| C06 | `C06_forward_sweep_reads_recorded_trace` | TapeProps.v | - |
| C06 | `C06_C07_any_sweep_history` | TapeProps.v | - |
| C06 | `C06_large_buffer_refuted` | TapeProps.v | - |
| C06 | `C06_many_params_refuted` | TapeProps.v | - |
| C06 | `C06_small_lbufsize_refuted` | TapeProps.v | - |
| C07 | `C07_reverse_sweep_reads_recorded_trace` | TapeProps.v | - |
| C07 | `C06_C07_any_sweep_history` | TapeProps.v | - |
| C07 | `C07_empty_value_file_refuted` | TapeProps.v | - |
| C07 | `C07_params_over_block_refuted` | TapeProps.v | - |
| C11 | `C11_replay_at_recording_point` | AdProps.v | - |
| C11 | `C11_double` | AdProps.v | ABCD |
| C11 | `C11_signed_zero_refuted` | AdSelect.v | ABCD |
| C11 | `C11_frexp_refuted` | AdSelect.v | ABCD |
| C12 | `C12_replay_at_new_point` | AdProps.v | - |
| C12 | `C12_replay_completes` | AdProps.v | - |
| C12 | `C12_double` | AdProps.v | ABCD |
| C13 | `C13_branch_switch_reported` | AdProps.v | - |
| C13 | `C13_error_reported` | AdProps.v | - |
| C13 | `C13_nan_refuted` | AdSelect.v | ABCD |
| C17 | `C17_new_parameters` | AdProps.v | - |
| C27 | `C27_fmin_tmp_first` | AdSelect.v | ABCD |
| C27 | `C27_fmin_tmp_second` | AdSelect.v | ABCD |
| C27 | `C27_fmax` | AdSelect.v | ABCD |
| C27 | `C27_fabs` | AdSelect.v | ABCD |
| C27 | `C27_condassign` | AdSelect.v | ABCD |
| C27 | `C27_condassign_short` | AdSelect.v | ABCD |
| C27 | `C27_condeqassign` | AdSelect.v | ABCD |
| C27 | `C27_condeqassign_short` | AdSelect.v | ABCD |
| C27 | `C27_fmin_named_refuted` | AdSelect.v | ABCD |
| C27 | `C27_fmin_nan_refuted` | AdSelect.v | ABCD |
| C32 | `C32_tracing_keeps_values` | AdProps.v | - |
| C32 | `C32_tracing_keeps_errors` | AdProps.v | - |
| C32 | `C32_compare_constant` | AdSelect.v | ABCD |
| C32 | `C32_compare_variables` | AdSelect.v | ABCD |
| C32 | `C32_compare_infinite_refuted` | AdSelect.v | ABCD |
| C33 | `C33_selections_unchanged` | AdChoice.v | - |
| C33 | `C33_double` | AdChoice.v | ABCD |
| C33 | `C33_nontrivial` | AdChoice.v | ABCD |
| C33 | `C33_condassign_short_refuted` | AdSelect.v | ABCD |
| C15 | `C15_adjoint` | AdReverseProps.v | ABCD |
| C15 | `C15_trace` | AdReverseProps.v | ABCD |
| C15 | `C15_gradient` | AdDerivProps.v | ABCD |
| C15 | `C15_redeclared_independent_refuted` | AdReverseProps.v | ABCD |
| C15 | `C15_redeclared_dependent_refuted` | AdReverseProps.v | ABCD |
| C15 | `C15_used_dependent_refuted` | AdReverseProps.v | ABCD |
| C15 | `C15_eq_plus_prod_double_refuted` | AdReverseDouble.v | ABCD |
| C16 | `C16_restores` | AdKeep.v | - |
| C16 | `C16_stack_empty` | AdKeep.v | - |
| C16 | `C16_after_recording` | AdKeep.v | A |
| C16 | `C16_scalar_recording` | AdKeep.v | A |
| C16 | `C16_scalar_sweep` | AdKeep.v | - |
| C16 | `C16_double` | AdReverseDouble.v | ABCD |
| C16 | `C16_vec_copy_refuted` | AdReverseProps.v | ABCD |
| C14 | `C14_directional_derivative` | AdDerivProps.v | ABCD |
| C14 | `C14_program` | AdDerivProps.v | ABCD |
| C14 | `C14_trace` | AdDerivProps.v | ABCD |
| C08 | `C08_value_stack` | TayProps.v | - |
| C08 | `C08_recorded_stack` | TayProps.v | - |
| C08 | `C08_delete_scaylor` | TayProps.v | - |
| C08 | `C08_exactly_full_refuted` | TayProps.v | - |
| C08 | `C08_get_taylors_across_boundary_refuted` | TayProps.v | - |
| C08 | `C08_block_longer_than_buffer_refuted` | TayProps.v | - |
| C09 | `C09_sections` | MgrProps.v | - |
| C09 | `C09_one_section` | MgrProps.v | - |
| C09 | `C09_fresh_tapes` | MgrProps.v | - |
| C09 | `C09_unknown_tape` | MgrProps.v | - |
| C09 | `C09_not_tracing` | MgrProps.v | - |
| C09 | `C09_many_tapes_refuted` | MgrProps.v | - |
| C09 | `C09_failed_trace_on_refuted` | MgrProps.v | - |
| C10 | `C10_plain_starts` | MgrProps.v | - |
| C10 | `C10_unknown_tape` | MgrProps.v | - |
| C10 | `C10_nontrivial` | MgrProps.v | - |
| C10 | `C10_explicit_sizes_refuted` | MgrProps.v | - |
| C10 | `C10_operation_after_it_undefined` | MgrProps.v | - |
| C10 | `C10_plain_return_value` | MgrProps.v | - |
| C18 | `C18_safe_pattern_covers` | SpProps.v | - |
| C18 | `C18_tight_pattern_covers` | SpProps.v | - |
| C18 | `C18_safe_pattern_derivative` | SpProps.v | ABCD |
| C18 | `C18_tight_pattern_derivative` | SpProps.v | ABCD |
| C18 | `C18_rows_sorted` | SpProps.v | - |
| C18 | `C18_tight_rows_sorted` | SpProps.v | - |
| C18 | `C18_index_domains_fit` | SpProps.v | - |
| C18 | `C18_tight_index_domains_fit` | SpProps.v | - |
| C18 | `C18_divide_by_temporary_refuted` | SpProps.v | ABCD |
| C18 | `C18_condassign_to_second_operand_refuted` | SpProps.v | ABCD |
| C18 | `C18_axpy_in_place_refuted` | SpProps.v | ABCD |
| C18 | `C18_tight_short_condassign_refuted` | SpProps.v | ABCD |
| C28 | `C28_vector` | AllocProps.v | - |
| C28 | `C28_matrix` | AllocProps.v | - |
| C28 | `C28_tensor` | AllocProps.v | - |
| C28 | `C28_identity` | AllocProps.v | - |
| C28 | `C28_free` | AllocProps.v | - |
| C28 | `C28_overflow_refuted` | AllocProps.v | - |
| C29 | `C29_spread1` | FortProps.v | - |
| C29 | `C29_pack1` | FortProps.v | - |
| C29 | `C29_spread2` | FortProps.v | - |
| C29 | `C29_pack2` | FortProps.v | - |
| C29 | `C29_pack_spread2` | FortProps.v | - |
| C29 | `C29_spread_pack2` | FortProps.v | - |
| C29 | `C29_spread3` | FortProps.v | - |
| C29 | `C29_pack3` | FortProps.v | - |
| C29 | `C29_spread_pack3` | FortProps.v | - |
| C29 | `C29_pack_spread3` | FortProps.v | - |
| C22 | `C22_binomi` | TnProps.v | - |
| C22 | `C22_bijection` | TnProps.v | - |
| C22 | `C22_quadratic` | TnProps.v | - |
| C22 | `C22_value` | TnProps.v | - |
| C22 | `C22_tensorentry` | TnProps.v | - |
| C22 | `C22_freetensor` | TnProps.v | - |
| C22 | `C22_freetensor_refuted` | TnProps.v | - |
| C22 | `C22_permutation_refuted` | TnProps.v | - |
| C22 | `C22_tensor_value_refuted` | TnProps.v | - |
| C22 | `C22_coeff_address` | TnProps.v | - |
| C22 | `C22_directions` | TnProps.v | - |
| C34 | `C34_tensor_eval` | TnEval.v | AB |
| C25 | `C25_conv` | ConvProps.v | AB |
| C25 | `C25_inconv` | ConvProps.v | AB |
| C25 | `C25_deconv` | ConvProps.v | AB |
| C25 | `C25_inconv0` | ConvProps.v | AB |
| C25 | `C25_deconv0` | ConvProps.v | AB |
| C25 | `C25_divide` | ConvProps.v | AB |
| C25 | `C25_recipr` | ConvProps.v | AB |
| C25 | `C25_quotient_unique` | ConvProps.v | AB |
| C25 | `C25_zeroset` | ConvProps.v | B |
| C25 | `C25_copyAndZeroset` | ConvProps.v | B |
| C25 | `C25_inconv0_square_refuted` | ConvProps.v | AB |
| C25 | `C25_divide_in_place_refuted` | ConvProps.v | AB |
| C25 | `C25_recipr_dim0_refuted` | ConvProps.v | AB |
| C20 | `C20_values` | TlProps.v | ABCD |
| C20 | `C20_derivatives` | TlProps.v | ABCD |
| C20 | `C20_two_sided` | TlProps.v | ABCD |
| C20 | `C20_getset` | TlProps.v | - |
| C20 | `C20_setADValues` | TlProps.v | - |
| C20 | `C20_nontrivial` | TlProps.v | ABCD |
| C20 | `C20_atan2_refuted` | TlProps.v | ABCD |
| C20 | `C20_default_ctor_refuted` | TlProps.v | ABCD |
| C23 | `C23_schedule` | RevProps.v | - |
| C23 | `C23_optimal` | RevProps.v | - |
| C23 | `C23_too_many_steps` | RevProps.v | - |
| C23 | `C23_overflow_refuted` | RevProps.v | - |
| C23 | `C23_maxrange` | RevProps.v | - |
| C23 | `C23_nontrivial` | RevProps.v | - |
| C24 | `C24_adjoint` | CpProps.v | - |
| C24 | `C24_value` | CpProps.v | - |
| C24 | `C24_tangent` | CpProps.v | - |
| C24 | `C24_gradient` | CpGrad.v | ABC |
| C24 | `C24_nontrivial` | CpProps.v | - |
| C24 | `C24_gradient_nontrivial` | CpGrad.v | ABCD |
| C24 | `C24_two_loops_refuted` | CpProps.v | - |
| C24 | `C24_second_reverse_refuted` | CpProps.v | - |
| C26 | `C26_function` | DrvProps.v | AB |
| C26 | `C26_gradient` | DrvProps.v | AB |
| C26 | `C26_vec_jac` | DrvProps.v | AB |
| C26 | `C26_jacobian` | DrvProps.v | AB |
| C26 | `C26_large_jacobian` | DrvProps.v | AB |
| C26 | `C26_large_jacobian_fits` | DrvProps.v | - |
| C26 | `C26_jac_vec` | DrvProps.v | AB |
| C26 | `C26_lagra_hess_vec` | DrvProps.v | AB |
| C26 | `C26_hess_vec` | DrvProps.v | AB |
| C26 | `C26_hess_mat` | DrvProps.v | AB |
| C26 | `C26_hessian` | DrvProps.v | AB |
| C26 | `C26_hessian2` | DrvProps.v | AB |
| C26 | `C26_nontrivial` | DrvProps.v | ABCD |
| C26 | `C26_trace_exact` | DrvTrace.v | ABCD |
| C26 | `C26_program_exact` | DrvTrace.v | ABCD |
| C26 | `C26_recorded_gradient` | DrvTrace.v | ABCD |
| C26 | `C26_recorded_jacobian` | DrvTrace.v | ABCD |
| C26 | `C26_recorded_met` | DrvTrace.v | ABCD |
| C26 | `C26_vec_jac_repeat_refuted` | DrvProps.v | AB |
| C26 | `C26_large_jacobian_refuted` | DrvProps.v | B |
| C21 | `C21_taylor` | HosProps.v | ABCD |
| C21 | `C21_path` | HosEx.v | ABCD |
| C21 | `C21_program` | HosProps.v | ABCD |
| C21 | `C21_trace` | HosProps.v | ABCD |
| C21 | `C21_first_coefficient` | HosEx.v | ABCD |
| C21 | `C21_pow_at_zero_refuted` | HosEx.v | ABCD |
| C21 | `C21_cbrt_refuted` | HosEx.v | ABCD |
| C19 | `C19_safe_pattern_covers` | NlProps.v | ABCD |
| C19 | `C19_tight_pattern_covers` | NlProps.v | ABCD |
| C19 | `C19_safe_mixed_derivative` | NlProps.v | ABCD |
| C19 | `C19_tight_mixed_derivative` | NlProps.v | ABCD |
| C19 | `C19_safe_pattern_shape` | NlProps.v | - |
| C19 | `C19_tight_pattern_shape` | NlProps.v | - |
| C19 | `C19_safe_pattern_defined` | NlProps.v | - |
| C19 | `C19_tight_pattern_defined` | NlProps.v | - |
| C19 | `C19_example` | NlEx.v | ABCD |
| C19 | `C19_short_condassign_refuted` | NlEx.v | ABCD |
| C19 | `C19_safe_fmin_refuted` | NlEx.v | - |
| C19 | `C19_safe_condassign_refuted` | NlEx.v | - |
| C19 | `C19_stock_refuted` | NlEx.v | - |
| C19 | `C19_vec_dot_refuted` | NlEx.v | - |
| C30 | `C30_extended_jacobian` | AnfProps.v | ABCD |
| C30 | `C30_piecewise_linear_exact` | AnfProps.v | ABCD |
| C30 | `ex30_recorded` | AnfEx.v | ABCD |
| C30 | `C30_signature_gradient_refuted` | AnfEx.v | ABCD |
| C30 | `C30_branch_switch_unreported_refuted` | AnfEx.v | ABCD |
| C35 | `C35_factor_and_solve` | LinProps.v | AB |
| C35 | `C35_solution` | LinProps.v | AB |
| C35 | `C35_refused` | LinProps.v | AB |
| C35 | `C35_nontrivial` | LinProps.v | AB |
| C35 | `C35_after_failure_refuted` | LinProps.v | AB |
| C35 | `C35_traced_again_refuted` | LinProps.v | AB |
| C35 | `C35_after_branch_switch_refuted` | LinProps.v | AB |
| C35 | `C35_after_mode_0_refuted` | LinProps.v | AB |
| C36 | `C36_last_trace` | HistProps.v | - |
| C36 | `C36_nontrivial` | HistProps.v | - |
| C36 | `C36_stale_files_refuted` | HistProps.v | - |
| C36 | `C36_C37_refuted_concrete` | HistProps.v | - |
| C37 | `C37_parameters_used` | HistProps.v | - |
| C37 | `C37_nontrivial` | HistProps.v | - |
| C37 | `C37_disk_refuted` | HistProps.v | - |
| C37 | `C37_wrong_number_refuted` | HistProps.v | - |
| C37 | `C36_C37_refuted_concrete` | HistProps.v | - |
| C38 | `C38_columns` | VecProps.v | A |
| C38 | `C38_first_column` | VecProps.v | A |
| C38 | `C38_jacobian_product` | VecProps.v | ABCD |
| C38 | `C38_log_at_zero_refuted` | VecProps.v | ABCD |
| C38 | `C38_C39_met` | VecProps.v | ABCD |
| C39 | `C39_rows` | VecProps.v | A |
| C39 | `C39_single_row` | VecProps.v | A |
| C39 | `C39_adjoint` | VecProps.v | ABCD |
| C39 | `C39_jacobian` | VecProps.v | ABCD |
| C39 | `C39_subscript_refuted` | VecProps.v | ABCD |
| C39 | `C38_C39_met` | VecProps.v | ABCD |
| C40 | `C40_reported` | StatProps.v | - |
| C40 | `C40_recording` | StatProps.v | - |
| C40 | `C40_history` | StatProps.v | - |
| C40 | `C40_forward_counts` | StatProps.v | - |
| C40 | `C40_forward_reads` | StatProps.v | - |
| C40 | `C40_reverse_counts` | StatProps.v | - |
| C40 | `C40_reverse_weights` | StatProps.v | - |
| C40 | `C40_met` | StatProps.v | ABCD |
| C40 | `C40_C41_histories` | StatProps.v | ABCD |
| C40 | `C40_vec_dot_refuted` | StatProps.v | ABCD |
| C41 | `C41_trace_on_accepted` | StatProps.v | - |
| C41 | `C40_history` | StatProps.v | - |
| C41 | `C40_C41_histories` | StatProps.v | ABCD |
| C41 | `C41_rejected_sweep_refuted` | StatProps.v | - |
| C42 | `C42_forward_case` | LayProps.v | - |
| C42 | `C42_reverse_case` | LayProps.v | - |
| C42 | `C42_image_injective` | LayProps.v | - |
| C42 | `C42_recording_exists` | LayProps.v | - |
| C42 | `C42_sweeps_perform_the_recorded_program` | LayProps.v | - |
| C42 | `C42_met` | LayProps.v | - |
| C42 | `C42_bits_tight_case` | LayProps.v | - |
| C42 | `C42_bits_tight_case_refuted` | LayProps.v | - |
| C42 | `C42_bits_tight_refuted` | LayProps.v | - |
| C43 | `C43_hos_ti_reverse` | HrvProps.v | ABCD |
| C43 | `C43_forward_completes` | HrvProps.v | ABCD |
| C43 | `C43_met` | HrvEx.v | ABCD |
| C43 | `C43_pow_refuted` | HrvBad.v | ABCD |
| C43 | `C43_floor_refuted` | HrvBad.v | ABCD |
| C44 | `C44_second_order_adjoint` | HrvHess.v | ABCD |
| C44 | `C44_lagra_hess_vec` | HrvHess.v | ABCD |
| C44 | `C44_hess_vec` | HrvHess.v | ABCD |
| C44 | `C44_hessian` | HrvHess.v | ABCD |
| C44 | `mixed_second` | HrvHess.v | ABC |
| C44 | `C44_met` | HrvEx.v | ABCD |
| C45 | `C45_forode` | OdeFor.v | ABCD |
| C45 | `C45_completes` | OdeFor.v | ABCD |
| C45 | `C45_met` | OdeEx.v | ABCD |
| C45 | `C45_met_run` | OdeEx.v | ABCD |
| C46 | `C46_accode` | OdeAcc.v | ABCD |
| C46 | `C46_accode_sparse` | OdeAcc.v | ABCD |
| C46 | `C46_fundamental` | OdeFund.v | ABC |
| C46 | `C46_accode_fundamental` | OdeFund.v | ABCD |
| C46 | `C46_accode_sparse_fundamental` | OdeFund.v | ABCD |
| C46 | `C46_met` | OdeFund.v | ABCD |
| C46 | `C46_in_place_refuted` | OdeFund.v | ABCD |
| C46 | `C46_negative_entry_refuted` | OdeFund.v | ABCD |
| C46 | `C46_exit_bound_refuted` | OdeFund.v | ABCD |
| C47 | `C47_safe_forward_covers` | BvProps.v | - |
| C47 | `C47_safe_forward_only_chains` | BvProps.v | - |
| C47 | `C47_safe_forward_rows` | BvProps.v | - |
| C47 | `C47_safe_forward_returns` | BvProps.v | - |
| C47 | `C47_tight_forward_covers` | BvProps.v | - |
| C47 | `C47_tight_forward_only_chains` | BvProps.v | - |
| C47 | `C47_tight_forward_rows` | BvProps.v | - |
| C47 | `C47_tight_forward_returns` | BvProps.v | - |
| C47 | `C47_C48_safe_example` | BvBad.v | - |
| C47 | `C47_tight_example` | BvBad.v | ABCD |
| C47 | `C47_constant_row_null_refuted` | BvBad.v | ABCD |
| C47 | `C47_many_independents_crash_refuted` | BvBad.v | ABCD |
| C47 | `C47_fmin_wide_refuted` | BvBad.v | ABCD |
| C47 | `C47_short_condassign_refuted` | BvBad.v | ABCD |
| C48 | `C48_safe_reverse_covers` | BvProps.v | - |
| C48 | `C48_safe_reverse_only_chains` | BvProps.v | - |
| C48 | `C48_safe_reverse_rows` | BvProps.v | - |
| C48 | `C48_safe_reverse_returns` | BvProps.v | - |
| C48 | `C48_tight_reverse_covers` | BvProps.v | - |
| C48 | `C48_tight_reverse_only_chains` | BvProps.v | - |
| C48 | `C48_tight_reverse_rows` | BvProps.v | - |
| C48 | `C48_tight_reverse_returns` | BvProps.v | - |
| C48 | `C48_jac_pat_safe_covers` | BvProps.v | - |
| C48 | `C47_C48_safe_example` | BvBad.v | - |
| C48 | `C48_tight_example` | BvBad.v | ABCD |
| C48 | `C48_short_condassign_refuted` | BvBad.v | ABCD |
| C48 | `C48_dependent_reused_refuted` | BvBad.v | ABCD |
| C48 | `C48_fabs_at_zero_refuted` | BvBad.v | ABCD |
| C48 | `C48_division_wrong_branch_refuted` | BvBad.v | ABCD |
| C49 | `C49_directions` | HovProps.v | - |
| C49 | `C49_single` | HovProps.v | - |
| C49 | `C49_taylor` | HovProps.v | ABCD |
| C49 | `C49_met` | HovProps.v | ABCD |
| C49 | `C49_log_at_zero_refuted` | HovProps.v | ABCD |
| C49 | `C49_pow_at_zero_refuted` | HovProps.v | ABCD |
| C50 | `C50_tensor_eval` | TnTrace.v | ABCD |
| C50 | `line_taylor` | TnTaylor.v | ABCD |
| C50 | `C50_met` | TnTrace.v | ABCD |
| C51 | `C51_directions` | VrvRun.v | A |
| C51 | `C51_taylor` | VrvProps.v | ABCD |
| C51 | `C51_hess_mat` | VrvProps.v | ABCD |
| C51 | `C51_hessian2` | VrvProps.v | ABCD |
| C51 | `ordinary_fine` | VrvRun.v | - |
| C51 | `C51_met` | VrvProps.v | ABCD |
| C51 | `C51_dead_product_refuted` | VrvEx.v | ABCD |
| C51 | `C51_vec_axpy_refuted` | VrvEx.v | ABCD |
| C52 | `C52_rows` | HvrProps.v | - |
| C52 | `C52_taylor` | HvrReal.v | ABCD |
| C52 | `C52_hov_reverse` | HvrReal.v | ABCD |
| C52 | `C52_pattern` | HvrQuiet.v | ABCD |
| C52 | `rowwise_fine` | HvrProps.v | - |
| C52 | `C52_met` | HvrReal.v | ABCD |
| C52 | `C52_vec_axpy_refuted` | HvrEx.v | ABCD |
| C52 | `C52_fabs_refuted` | HvrEx.v | ABCD |
| C52 | `C52_inplace_pattern_refuted` | HvrEx.v | ABCD |
| C52 | `C52_inplace_refuted` | HvrEx.v | ABCD |
| C53 | `C53_scalarcv` | LieDrv.v | ABCD |
| C53 | `C53_scalarc` | LieDrv.v | ABCD |
| C53 | `C53_gradientcv` | LieDrv.v | ABCD |
| C53 | `C53_gradientc` | LieDrv.v | ABCD |
| C53 | `C53_covector` | LieDrv.v | ABCD |
| C53 | `C53_bracket` | LieDrv.v | ABCD |
| C53 | `C53_met` | LieEx.v | ABCD |
| C53 | `C53_met_run` | LieEx.v | ABCD |
| C53 | `C53_overflow_refuted` | LieDrv.v | ABCD |
| C53 | `C53_d1_refuted` | LieBin.v | ABCD |
| C54 | `C54_pattern` | IndoProps.v | - |
| C54 | `C54_jacobian` | IndoProps.v | ABC |
| C54 | `C54_sorted` | IndoProps.v | - |
| C54 | `C54_get` | IndoProps.v | - |
| C54 | `C54_chains` | IndoProps.v | - |
| C54 | `C54_straight` | IndoStraight.v | - |
| C54 | `C54_straight_jacobian` | IndoStraight.v | ABC |
| C54 | `C54_straight_met` | IndoStraight.v | - |
| C54 | `C54_met` | IndoEx.v | - |
| C54 | `C54_jacobian_met` | IndoEx.v | ABCD |
| C54 | `C54_self_assignment_refuted` | IndoEx.v | - |
| C55 | `C55_recording` | ExtProps.v | AB |
| C55 | `C55_replay` | ExtProps.v | AB |
| C55 | `C55_tangent` | ExtProps.v | AB |
| C55 | `C55_reverse` | ExtProps.v | AB |
| C55 | `C55_gradient` | ExtProps.v | ABC |
| C55 | `C55_two_places_refuted` | ExtEx.v | B |
| C55 | `C55_in_place_refuted` | ExtEx.v | AB |
| C55 | `C55_iarr_in_place_refuted` | ExtEx.v | B |
| C55 | `C55_overwriting_refuted` | ExtEx.v | AB |
| C56 | `C56_value` | FixProps.v | AB |
| C56 | `C56_converges` | FixProps.v | AB |
| C56 | `C56_zos` | FixProps.v | AB |
| C56 | `C56_tangent` | FixProps.v | ABC |
| C56 | `C56_reverse` | FixProps.v | AB |
| C56 | `C56_reverse_converges` | FixProps.v | AB |
| C56 | `C56_registered` | FixProps.v | AB |
| C56 | `C56_kept_entry` | FixProps.v | AB |
| C56 | `C56_stale_refuted` | FixEx.v | ABCD |
| C56 | `C56_two_tapes_refuted` | FixEx.v | AB |
| C56 | `C56_uninitialised_refuted` | FixEx.v | AB |
| C56 | `C56_code_refuted` | FixEx.v | AB |
| C57 | `C57_first_call` | SjProps.v | ABCD |
| C57 | `C57_any_call` | SjProps.v | ABCD |
| C57 | `C57_no_crash` | SjProps.v | ABCD |
| C57 | `C57_repeated_call` | SjProps.v | ABCD |
| C57 | `C57_repeat_needs_first` | SjProps.v | - |
| C57 | `C57_hypotheses_met` | SjEx.v | ABCD |
| C57 | `C57_met` | SjEx.v | ABCD |
| C57 | `C57_other_mode_refuted` | SjEx.v | ABCD |
| C57 | `C57_failed_first_call_refuted` | SjEx.v | ABCD |
| C57 | `C57_tight_at_new_point_refuted` | SjEx.v | ABCD |
