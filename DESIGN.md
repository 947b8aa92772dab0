# Formal model of PLASMA: design

Written before the proofs; the sections "Trusted base" and "Findings" are kept
current as the development grows.

## 1. What is modelled, in layers

All files live in `rocq/theories/`. `*Model.v` files contain definitions only (the
code), `*Spec.v` files contain the independent specification, `*Proofs.v` the
lemmas, and `Properties*.v` contain nothing but the property theorems, each closed by
`exact`, with its `Print Assumptions`, and an `Example` showing the hypotheses are
satisfiable in a non-trivial case.

1. **Descriptors and tile addresses** (`control/descriptor.c`,
   `include/plasma_descriptor.h`). `plasma_desc_t` becomes a record of integers (`Z`);
   every address function is transcribed as an offset, in *elements*, from the base of the
   descriptor's allocation. C `int`/`size_t` arithmetic is modelled by unbounded `Z`,
   except in the theorems about overflow, where 32-bit wrap is explicit.
2. **Memory**: a location is a pair (block, element offset); a memory is a total function
   from locations to values. The copy kernels (`plasma_core_zlacpy` and the
   LAPACK calls below it) are functions on memories.
3. **Layout translation** (`pzge2desc`, `pzdesc2ge`, `pztr2desc`, `pzdesc2tr`, band
   variants): lists of tasks generated by the same loops as in the C code.
4. **Control** (`context.c`, `tuning.c`, `async.c`, `constants.c`, argument checks of the
   synchronous drivers): transition functions over histories of calls.
5. **Barrier** (`barrier.c`): small-step semantics, one step per atomic memory operation of
   one thread, any number of threads and rounds.
6. **Task engine**: a task is a list of dependences (kind, address) plus a body with a read
   set and a write set. The runtime is modelled as in the OpenMP specification: a
   task may start once every earlier-submitted sibling task with which it shares a
   dependence address (one of the two being `out`/`inout`) has completed; ready tasks
   interleave arbitrarily, at the granularity of their individual memory actions. Every task has a
   start step, so that tasks with an empty body still wait for their predecessors; conflicting
   tasks may be ordered through a chain of tasks between them (`klinked`).
7. **Tile algorithms** (`pzgemm.c`, `pzpotrf.c`, ...): task lists generated by the loops of the
   C code, over matrices with entries in an arbitrary commutative ring with
   conjugation (a field where the code divides).
8. **Tree generator** (`control/tree.c`), **bisection** (`zlaebz2.c`), **iterative refinement
   control** (`zcgesv.c`, `zcposv.c`).

## 2. Property by property

| id | modelled | proof plan |
|----|----------|-----------|
| C01 | `plasma_tile_addr_general`, `mmain`, `nmain`, `general_init`, `create` | show the address of element (i,j) is an injection into `[0,lm*ln)`, case split over the four storage regions A11, A21, A12, A22; surjectivity by an explicit inverse |
| C02 | `plasma_tile_addr_triangle`, `triangular_init/create` | monotonicity of the triangular-number offset in the column-major order of stored tiles |
| C03 | band address, band create | reduction to C01 through the change of tile row `kut-1+m-n` |
| C04 | `mview`, `nview`, `mmain`, `nmain`, `mt`, `nt`, `view` | division algorithm, induction over the number of tiles for the sum |
| C05 | `pzge2desc`, `pzdesc2ge`, `zlacpy` general | tasks as memory updates at computed addresses; C01 gives disjointness; permutation-invariance via the engine |
| C06 | `pztr2desc`, `pzdesc2tr`, `zlacpy` upper/lower | as C05, with C02 |
| C07 | `desc_check`, `create`, `view` | case analysis of the decision procedure |
| C08 | `general_band_check` | refutation by witness for lower storage, proof for upper and general |
| C09 | `plasma_init/set/get/finalize` | refinement to an abstract map, induction over histories |
| C10 | `plasma_tune_*`, `tuning_init` | invariant "configuration handle is NULL" over histories |
| C11 | `async.c` | invariant over histories |
| C12 | argument-check prefixes of the drivers | each driver's checks as a list in source order; proof against an independent table of legality per parameter; refutation for the drivers that return the wrong position; for the 49 routines with a driver model, the driver returns that code and has no tasks (ArgsLinkProofs) |
| C13 | `barrier.c` | inductive invariant over the small-step system; progress from the invariant |
| C14 | OpenMP `depend` semantics | commutation of independent actions; every admissible interleaving can be sorted into submission order |
| C15 | `zgemm`, `pzgemm`, `core_zgemm`, layout translation | engine + invariant of the k-loop over partial sums; composition with C05 |
| C16 | `pzsyrk`, `pzherk` | as C15; refutation for k = 0 |
| C17 | `pzsymm`, `pzhemm` | as C15 |
| C18 | `pzsyr2k`, `pzher2k` | as C15 |
| C19 | `pztrmm` | sequential invariant: which rows are already final, which are still original |
| C20 | `pztrsm` | kernel contract for the diagonal solve; invariant over tile rows |
| C21 | `pzpotrf` | kernel contract for the diagonal factorisation; right-looking invariant "L*L^H of finished part plus Schur complement = A" |
| C22 | `pzpotrf` with the status word | engine with a shared status (`Guard*.v`); diagonal tasks are totally ordered by the dependences; Cholesky equations related to positive definiteness (`HpdProofs.v`) |
| C23 | `zgetrf`, `pzgetrf`, `core_zgetrf` (all ranks), pivoting of the tile columns | the panel simulates a matrix algorithm (`GetrfPanelProofs.v`), whose invariant is the LU equation with the composed permutation and, for failures, a vector in the kernel (`LuProofs.v`, `GetrfAbsProofs.v`); conflicting tasks are ordered through the last tile of a column (`GetrfLinkProofs.v`); the threads of the panel between two barriers are tasks without dependences (`GetrfRankProofs.v`); witness schedule for the race with the translation (`GetrfRaceProofs.v`) |
| C24 | `zgeswp`, `pzgeswp`, `core_zgeswp` | algebra of transpositions; panels of tiles ordered through empty tasks (`GroupProofs.v`, `PanelProofs.v`) |
| C34 | `pzdesc2ge` followed by `pzgeswp` | witness schedule (`ExecProofs.v`: any order respecting the depend clauses is an execution) |
| C25 | all of `control/tree.c` | state of every tile as a function of the counters NT, NZ per column; every inserted kernel shown allowed; termination by the sum of the counters; size of the array by counting distinct tiles |
| C26 | `zlange`, `pzlange`, `core_zlange`, `core_zgessq`, `dzamax`; `zlansy`, `zlanhe`, `zlantr` | one task per tile writing its own segment of the workspace (`jobs_region`, `FillProofs.v`), phases separated by taskwait, max/sum over tiles equals max/sum over the matrix |
| C27 | `zgeadd`, `ztradd`, `zlacpy`, `zlascl`, `zlaset` with their `pz*` and `core_*` | one task per selected tile, in any order (`sweep_at`), then pointwise case analysis |
| C28 | `zlaebz2`, `zstevx2` (control, bounds, compression), `zlaneg2` | machine numbers are numbered by Z; invariant over all interleavings of the calls: every wanted location is covered by a call in progress or stored (`StevxProofs.v`); each location has its own index; the compression keeps the positive multiplicities (`StevxDriverProofs.v`); the rounded middle of two binary64 numbers (`StevxFloatProofs.v`, Flocq); witnesses for the four defects (`StevxRefuteProofs.v`); where the recurrence meets no zero, `zlaneg2` counts the negative pivots of L*D*L^T (`StevxSturmProofs.v`), which Sylvester's law, not proved here, equates with the eigenvalues below u |
| C29 | refinement loop of `zcgesv`/`zcposv`/`zcgbsv` | induction on the loop counter; all called routines are oracles (`rops`), calls in submission order |
| C30 | `constants.c`, `lapack_constants[]` | decision over the finite tables, quantified over all characters |
| C31 | `plasma_desc_*_create` as called by the drivers | case analysis; refutation for wide bands and small `zhetrf` |
| C33 | `plasma_tree_operations` as called by `pzunmqr_tree.c`, `pzungqr_tree.c` | the list depends on the shape only through `min(mt, nt)`; refutation for fewer reflectors and other thread counts |
| C32 | `plasma_descT_create`, tile addresses of T | C01 applied to T, and the offset of the second half of its columns |
| C35 | `zpotrs`, `zposv` | factorization (C21) and two solves (C20) in one region of tasks that may fail (`GOperandProofs.v`); the factor in the tiles is the one translated back |
| C36 | `zgetrs` | solves (C20) and interchanges (C24) in one region; the interchange names the inner tiles of a column only as read before it, so the order with the transposed solves comes from chains through the first tile (`GetrsLinkProofs.v`) |
| C37 | `ztrtri`, `zlauum`, `zpotri`, `zpoinv` | lower view of both triangles (`ViewProofs.v`); after step k the leading k tile rows hold the inverse of the leading block and the rows below it minus their product with it (`TrtriProofs.v`); several tasks may fail independently, so a nonzero status is traced to some task whose inputs are settled (`GuardAnyProofs.v`); `zlauum` by the partial products of the first k tile rows (`LauumProofs.v`); `zpotri` and `zpoinv` chain the stages in one region (`InvDriverProofs2.v`, `InvDriverProofs3.v`) |
| C38 | `core_zgeqrt`, `core_ztsqrt`, `core_zunmqr`, `core_ztsmqr`, `pzgeqrf`, `plasma_zgeqrf`, flat mode | each kernel multiplies by a product of elementary reflectors I - tau*v*v^H given by V and T (compact WY form, `QrAlgProofs.v`, `QrKerProofs*.v`); on columns of the whole matrix every kernel is a step of the form op(k,m) (`QrStepProofs.v`); invariant of the steps: R part and reflectors so far (`QrInvProofs.v`) |
| C39 | `pzunmqr`, `plasma_zunmqr`, flat mode | the same steps in either order, from the left, or from the right as the adjoint (`QrUnmProofs.v`, `QrListProofs.v`, `QrDriverProofs.v`) |
| C40 | `plasma_zgeqrs`, views of descriptors, flat mode | the factor Q of C38, applied as in C39, then the triangular solve on the leading tiles (`LsViewProofs.v`, `LsQrsProofs.v`); the algebra of normal equations in `LsAlgProofs.v`, `LsNormProofs.v` |
| C41 | `pzungqr`, `plasma_zungqr`, flat mode | the skipped products act on rows that are still those of the identity (`LsGqrProofs.v`); for k < n refuted (`LsRefProofs.v`) |
| C42 | `core_zgelqt`, `core_ztslqt`, `core_zunmlq`, `core_ztsmlq`, `pzgelqf`, `plasma_zgelqf`, flat mode | each LQ kernel on A is the QR kernel on the conjugate transpose of A (`LqDualProofs.v`, `LqDual2Proofs.v`), so the whole list of tile operations is carried over from C38 (`LqEffProofs.v`, `LqDriverProofs.v`) |
| C43 | `pzunmlq`, `plasma_zunmlq`, flat mode | the same duality from C39: the other side and the other transposition |
| C44 | `plasma_zgelqs`, `pzlaset` and `pztrsm` on views, flat mode | zero the rows below b, solve with L, multiply by Q^H (`LqSolveProofs.v`, `LqSolve2Proofs.v`); for m = 0 refuted (`LqRefProofs.v`) |
| C45 | `pzunglq`, `plasma_zunglq`, flat mode | dual of C41 (`LqGlqProofs.v`); for k < m refuted |
| C46 | `plasma_zgels`, flat mode | the four branches as one region: factorization followed by C40 or C44 or their adjoints (`LqGelsProofs.v`); residual of empty problems refuted |
| C47 | descriptors and tile addresses in `int` and `size_t` | `OverflowModel.v` repeats the storage formulas with every operation checked (undefined on overflow) or wrapped; equal to the exact ones of `DescModel.v` for general storage, and for packed storage below 2^31 elements; packed storage of order 65536 and more refuted; `OverflowBandModel.v` does the same for band descriptors at the origin, their check, and the row counts of the band drivers (`OverflowBandProofs.v`) |
| C48 | `pzpb2desc`, `pzdesc2pb`, `core_zlacpy_lapack2tile_band`, `core_zlacpy_tile2lapack_band` | the writes of one kernel call are the band part of its tile (`BandProofs.v`); a band descriptor has square tiles, so the region machinery for tiles applies to the tiles of the band (`BandLayoutProofs.v`, `BandRegionProofs.v`); general band refuted (`BandGbProofs.v`); write before the tile for m < n (`BandWideProofs.v`) |
| C49 | `pzpbtrf`, `plasma_zpbtrf` | the proof of C21 on the tiles of the band (`PbtrfProofs.v`): the factor vanishes outside the band, so the updates left out are zero; failures need not be ordered when kd = 0, hence the engine of C37 (`PbtrfDriverProofs.v`, `PbtrfMainProofs.v`); kd = 0 and kd >= n refuted (`PbtrfRefProofs.v`) |
| C50 | `pztbsm` without pivots, `plasma_zpbtrs` | each of the four loops as a lazy triangular solve over tile rows, updates outside the band being zero (`PbtrsVecProofs.v`, `PbtrsProofs.v`); two solves and three translations as one region (`PbtrsDriverProofs.v`); n = 0 and kd >= n refuted |
| C51 | `plasma_zpbsv` | C49 followed by C50 in one region (`PbsvProofs.v`, `PbsvMainProofs.v`); no right hand sides refuted |
| C52 | `pzlangb`, `plasma_zlangb` | partial: for the layout of the tests, the band copy gives the matrix in every copied tile (`NormGbLayoutProofs.v`), tasks fill disjoint parts of the workspace (`NormGbRegionProofs.v`), partial sums shifted by the first tile row of the column add up to the norm (`NormGbPhaseProofs.v`, `NormGbDriverProofs.v`); the workspace suffices (`NormGbWorkProofs.v`); not covered: more columns than rows with a partial last tile row. Refuted for the documented layout: a 2 x 2 matrix in one tile, followed through the two parallel phases (`NormBandProofs.v`); kl >= m refused |
| C53 | `pzgetri_aux`, `plasma_zgetri_aux`, `plasma_zgetri` | one step of `pzgetri_aux` as a block column equation X*L = U^(-1) (`GetriAuxProofs.v`); tasks and the chain that makes the interchange of a tile row wait for it (`GetriLinkProofs.v`); inversion, product and interchange together (`GetriProofs.v`, `GetriDriverProofs.v`) |
| C54 | `plasma_zgesv`, `plasma_omp_zgesv` | tasks on numbers lifted to the memory that holds `ipiv` as well (`GesvLiftProofs.v`), interchanges that read `ipiv` (`GesvSwpProofs.v`); every task that names a tile of A after the factorization waits for all its tasks on that tile (`GesvFlushProofs.v`, `GesvLinkProofs.v`), so C23 and C36 apply one after the other (`GesvDriverProofs.v`, `GesvMainProofs.v`); n > 3*nb and the interchanges after a failure refuted (`GesvRaceProofs.v`). In the model the interchange tests the status of the sequence, in the code it does not: no theorem is about executions in which a panel has failed |
| C55 | `plasma_zgeinv`, `plasma_omp_zgeinv`, m = n | the tasks of C53 lifted as in C54; an interchange of columns waits for the factorization through the solve that wrote the tile before it (`GeinvLinkProofs.v`); C23 and C53 one after the other (`GeinvMainProofs.v`); n > 3*nb and m <> n refuted (`GeinvRaceProofs.v`). As for C54 no theorem is about executions in which a panel has failed |
| C56 | `plasma_zlag2c`, `plasma_clag2z` and their tile and task functions (`LagModel.v`; the branches for band matrices are C65) | one sweep over the tiles (`LagProofs.v`). For executions in which a task fails: the memory at the end is that of the tasks that have run, and a place holds what the last of them to write it writes when all tasks run (`GuardTraceProofs.v`, for drivers `GTraceProofs.v`). LAPACK zlag2c is modelled as going column by column and stopping at the first element out of range, clag2z as converting every element; the conversion of one number is a parameter |
| C57 | the models of C35 and C50 | every task that copies a tile of B back waits, through the last row of the forward solve and the backward solve, for the factorization of every diagonal tile (`FailLinkProofs.v`); with what is known about executions with a failing task (`GTraceProofs.v`) no tile of B is copied back (`PosvFailProofs.v`, `PbsvFailProofs.v`). For kd = 0 an execution is exhibited (`PbsvRefProofs.v`) |
| C58 | `plasma_zgbmm`, `plasma_omp_zgbmm`, `plasma_pzgb2desc`, the branches of `plasma_pzgemm` for a band matrix A (`GbmmModel.v`; A is a full array, not LAPACK band storage) | the tiles copied and the columns used as sets of tiles; a column that the loop leaves out is outside of the band (`GbmmProofs.v`, `ks_out`, `ke_out`); driver as in C15 (`GbmmDriverProofs.v`). A zero outside of its band is a hypothesis: the code uses whole tiles |
| C59 | `plasma_zgbset` (`GbsetModel.v`) | the routine as the list of its calls of `plasma_zlaset`, each with the model of C27; several calls one after the other set the union of their rectangles to zero (`GbsetProofs.v`, `calls_ensures`), and can be executed (`calls_possible`, for the refutations); then arithmetic about which elements the rectangles meet. Products of int offsets are taken not to overflow |
| C60 | `plasma_zcposv`, `plasma_omp_zcposv` and the tile and task functions they call in double precision (`RefineTaskModel.v`) | the routine as a tree of lists of tasks separated by taskwaits; what happens after a taskwait depends on memory. Single precision is the same type of numbers with `narrow`, `widen` and `fits` as parameters; the single precision factorization and solve are arbitrary lists of tasks that read As and Xs and write As (factor) or Xs (solve) and say so (`single_task`), which the tasks of pzpotrf and pztrsm do (`potrf_single`). Norm task, pzamax, residual and correction with the lemmas of C26 and C15 (`RefineTaskProofs.v` to `RefineTaskProofs3.v`), the loop by induction for any number of tiles (`RefineTaskProofs4.v`, `RefineTaskProofs7.v`), the whole call for one tile (`RefineTaskProofs5.v`, `RefineTaskProofs6.v`), executions for the refutations (`RefineTaskRefProofs.v`). LAPACK dlamch('E') and sqrt(n) are parameters |
| C61 | `plasma_zgbtrs`, `plasma_omp_zgbtrs`, the branches of `pztbsm` with row interchanges, `core_zgeswp` as called there (`GbtrsModel.v`) | the tasks as a list of items, some of them (`Alone`) executed by the submitting thread after a taskwait, which cuts the list into regions (`waits`); every such list behaves as its sequential execution (`waits_ensures`, `GbtrsSwapProofs.v`). One block step is P_k then L_k (`GbtrsVecProofs.v`, `GbtrsStepProofs.v`), the upper solve as for C50 with the band kl + ku (`TbsmProofs.v`), together `GbtrsProofs.v`; translations and memory in `GbtrsDriverProofs.v`. The factors are in the form C62 proves for `plasma_zgbtrf` |
| C62 | `plasma_zgbtrf`, `plasma_omp_zgbtrf` (`GbtrfDriverModel.v`), `plasma_pzgbtrf` (`GbtrfModel.v`), `core_zgetrf` as modelled for C23 on views of the band descriptor | an invariant of the n x n matrix before step k (`ginv`, `GbtrfMathProofs.v`): the rows still to be eliminated reach kl below the block, the part done is well pivoted, and the product so far gives back A. Panel and update tasks on the packed tiles keep it (`GbtrfTaskProofs.v`, `GbtrfUpdateProofs.v`, `GbtrfStepProofs.v`, `GbtrfRunProofs.v`); the order of the tasks, which name two tiles of a column only, is shown by chains through the tasks in between (`GbtrfLinkProofs.v`); panels wait for each other when kut > 1, so the code is that of the first panel that fails; with kl = ku = 0 they do not, and the code is that of any panel that fails (`GbtrfDiagProofs.v`); the copies in and out (`GbtrfCopyProofs.v`) and the three regions (`GbtrfDriverProofs.v`). The nested gemm tasks of an update are run in order. The allocations of the panel task succeed |
| C63 | `plasma_zgbsv`, `plasma_omp_zgbsv` (`GbsvModel.v`) | the region of the factorization ends with the first taskwait of `pztbsm`; if it failed nothing else does anything, otherwise the solves of C61 follow on memory that also holds ipiv (`cells_waits`), and the copies back (`GbsvProofs.v`). ipiv is read once, at the taskwait: nothing writes it later |
| C64 | `pzgecpy_tile2lapack_band`, the memset and copy of `zgesdd` (`SvdBandModel.v`) | every task copies a triangle of one tile to the cells `band_loc` of its elements; these determine the tile, so no two tasks conflict and the order does not matter (`SvdBandProofs.v`). The reduction `pzge2gb` before it and the bulge chasing after it are not modelled |
| C65 | the band branches of `pzlag2c` and `pclag2z`, and the conversion and factorization that `zcgbsv` submits (`LagBandModel.v`, with `pzgbtrf` of C62) | one task per tile, on tiles that do not overlap (`LagBandProofs.v`); the elements converted are described by `near_band` (`LagBandSpec.v`). The refutation runs a matrix of order 2 with two contents of the uninitialised memory (`LagBandDriverProofs.v`) |
| C66 | the workspace of `zcgesv`, `zcposv`, `zcgbsv`: its size with the conversions of C, and the calls of `pzlange`, `pzlanhe`, `pzlangb`, `pdzamax` that use it (`MixedWorkModel.v`) | bounds of the tasks as in C26 (`NormWorkProofs.v`, `NormGbWorkProofs.v`), with an offset for the second half; for the refutations one task of a large matrix is named and its address computed (`MixedWorkProofs.v`) |
| C67 | the last task of `pzlange` and the tasks of `pdzamax` for X in `zcgesv`, with arbitrary tasks between them (`MixedRaceModel.v`) | every chain of dependent tasks from the first one ends at the task of tile (0,0) (`MixedRaceProofs.v`, `reach`); another tile writes what the first one reads |
| C68 | `findVTpos`, `findVTsiz` (`include/bulge.h`), the steps of a sweep in `pzgbbrd_static`, the vectors used by the kernels `zgbtype1cb` to `3cb` (`BulgeModel.v`) | the vectors of a sweep start every nb rows (`BulgeProofs.v`, `vector_rows`); blocks of earlier columns come before (`block_inj`), so that the position is a number in mixed radix |
| C69 | the calls of `zlarft` in `pzlarft_blgtrd` (`BulgeModel.v`, `larft_calls`) | a call is given by block column and tile (`BulgeLarftProofs.v`, `at_eq`); the tile of a vector is the number of its step, which is below mt because only the last sweep reaches the last row with its first vector |

If, during the work, one of these turns out false in the code, it is proved as a
`_refuted` theorem with a witness, and the part that does hold is proved beside it.

## 3. Trusted base

* The Coq 8.16.1 kernel (no axioms of our own; `vm_compute` and `lazy` only in examples and in decisions
  over finite tables).
* The assumptions listed by `Print Assumptions` under each property theorem (section 5).
* The transcription of C into Gallina by reading; each definition cites the lines it models.
* The following are **not** modelled, and are assumptions of every statement:
  * floating-point rounding, overflow, NaN: the numerical theorems are over exact
    commutative rings with conjugation (`numbers`), or fields where the code divides
    (`fields`);
  * BLAS/LAPACK library calls are written out as their mathematical definition:
    `gemm`, `syrk`, `herk`, `syr2k`, `her2k`, `symm`, `hemm`, `trmm`, `lacpy`, `laset`,
    `lascl`, `scal`, `geru`, `swap` as formulas, `trsm` as substitution in the order of the triangle, `potrf` on one tile as
    the unblocked column algorithm, `trtri` on one tile as the solution of A*x = e_j for each column after
    the test of the diagonal, `lauum` as the triangle of the product;
  * where BLAS/LAPACK take the real part of a diagonal element (`herk`, `her2k`, `potrf`) the
    model applies an arbitrary function `rp` of which only `rp x = x` for real `x` is assumed;
  * square roots are an oracle (`roots` in `PotrfModel.v`): either nothing, or a nonzero real
    number whose square is the argument. C22 also assumes that positive numbers have roots;
  * norms (`NormModel.v`): an absolute value and a comparison on its range (`normed`); LAPACK
    `zlange`, `dlange`, `zlansy`, `zlantr` on one tile are written out as their loops, `zlassq` is an
    oracle with the contract `lassq_ok`, the square root an uninterpreted function;
  * QR and LQ (`QrModel.v`, `LqModel.v`): LAPACK `zlarfg` is an oracle with the contract `larfg_ok` (`QrSpec.v`); `zgeqr2`, `zgelq2`, `zlarft`
    and `zlarfb` are written out as their definitions; only the flat Householder mode (the
    default); the kernels' private workspace is left out;
  * conversion of precision (`LagModel.v`): the conversions of one number and the test of the range are
    parameters; LAPACK `zlag2c` goes column by column and stops at the first element out of range;
  * after a failed factorization of a tile its contents are left to the model's choice; no
    theorem says anything about them;
  * the OpenMP runtime is assumed to implement `depend` as specified and task
    completion/`taskwait` as memory synchronisation. The dependences of a task are matched by
    start address, as OpenMP does for list items with the same base;
  * LU: "has the larger absolute value" is an arbitrary comparison (`bigger`), assumed to be a
    strict weak order with nonzero numbers above zero only where a theorem says so
    (`comparison`); between two barriers the threads of a panel are run one after the other,
    which C23_panel_* justify; the barrier itself is C13; division and multiplication by the
    reciprocal are not distinguished; the panel task reports a failure when it ends;
  * eigenvalues: overflow, infinities and NaN are left out; the Sturm count is an arbitrary
    monotone function in the positive theorems and exact rational arithmetic in the
    refutations; stein, QR and the exchange of eigenvectors are not modelled; the Gerschgorin
    bounds are assumed to enclose the eigenvalues (`encloses`);
  * in the engine with failing tasks (`GuardModel.v`) the test of `sequence->status` at the start
    of a task body and the store in `plasma_request_fail` are single actions; the C code has
    an unsynchronised read there, which is a data race in the C11 sense;
  * 32-bit `int` overflow, except where a theorem says so (C47 treats the address arithmetic of general,
    packed and band storage; band descriptors away from the origin, dependence clauses `A[0:lda*n]` and loop counters are not treated);
  * `malloc` failure paths, except where a theorem says so;
  * the precision generator (`tools/codegen.py`) that derives the s/d/c code from the z
    templates: the z files are what is modelled;
  * not modelled at all so far: `core_blas` kernels other than those listed above,
    singular value routines (but for the copy of C64 and the storage of C68 and C69), the Hermitian indefinite factorization, the mixed precision drivers for LU (but for C65 to C67), and the
    tree mode of QR and LQ (but for its tree, C25, C33).

## 4. Findings

Each is the subject of a `_refuted` theorem, unless marked (reading only).

* **Non-square packed triangular matrices** are accepted by `plasma_desc_triangular_create`,
  but elements outside the square part have no storage (C02).
* **`plasma_desc_check`** does not look at the sign of the corner `i`, `j` of a view (C07).
* **`plasma_desc_general_band_check`** compares LAPACK row counts where tile row counts are needed
  and checks nothing for lower storage (C08).
* **Wide bands are refused**: descriptors for `kl` or `ku` not smaller than the order cannot be
  created, although the drivers accept such arguments (C31).
* **`plasma_zhetrf` fails for every `n <= nb`**: its band descriptor is always refused (C31).
* **Translating a packed triangle back writes the whole diagonal tiles**, including the half
  outside the triangle (C06).
* **Argument checks**: thirteen routines return a code that is not minus the position of the
  offending argument, or accept an illegal leading dimension (C12, list in MANIFEST.json).
* **`plasma_zsyrk/zherk/zsyr2k/zher2k` with `k = 0`** return without scaling C by beta
  (C16, C18).
* **`plasma_ztrsm` with alpha = 0**, side right, transposed, several tile columns: `pztrsm.c`
  computes `-1.0/alpha` (C20).
* **Mixed-precision solvers** test uninitialised norm workspaces when the low-precision
  factorization fails, can then report `iter = 0`, and do not fall back to full precision (C29).
  The test also passes when a norm is NaN, since it is written as "not greater" (C29 allows for
  that: the comparison is arbitrary).
* **Character constants**: the table in `plasma_core_blas.h` lacks a comma after "Rowwise", so that
  PlasmaW is printed as "All"; the job and range constants map to NUL; the 2-norm is not
  read back (C30).
* **Tree mode: Q is applied with another tree** when `zunmqr`/`zungqr` (or the LQ versions) are given fewer
  reflectors than the factorization produced, or run with another number of threads: the block
  size in `tree.c` depends on both (C33).
* **`plasma_omp_zgeswp` overtakes earlier readers**: its empty tasks wait for the inner tiles of a column
  with an `in` clause, which does not wait for tasks that only read the tile (C34).
* **`plasma_zgetrf` races with its own translation to tiles**: translation and factorization are
  submitted in one region without a wait, and the update of a tile column waits for the first,
  second and last tile of the column only. From four tile rows and two tile columns on there
  are executions that return 0 with wrong factors, and executions that report a regular matrix
  as singular (C23). `plasma_omp_zgetrf` by itself is correct on every schedule.
* (reading only) after a failure `plasma_zgetrf` returns min(m,n) plus the number of the column,
  not the number of the column; the matrix is not translated back.
* (reading only) the array sections in the depend clauses of `pzgetrf.c` overlap without being
  identical, which OpenMP does not allow; the model compares their start addresses.
* (reading only) `core_zgeswp` with increment 0 does not terminate; the driver does not check it.
* `plasma_desc_triangular_create` (control/descriptor.c:110-112) computes the number of elements, and
  `plasma_tile_addr_triangle` (include/plasma_descriptor.h:131,134) the offset of a tile, in `int`; only the
  result is converted to `size_t`. From order 65536 on, whatever the tile size, this overflows, so
  `plasma_zpotrf`, `zposv`, `zpoinv`, `ztrmm`, `zhetrf`, `zhesv` and `zhetrs` are undefined there. With wrapping
  arithmetic order 92928 and nb = 256 allocates 34734080 elements instead of 4329701376 and tile (168,1)
  lies outside (C47, `C47_packed_storage_refuted`, `C47_packed_storage_wrapping_refuted`).
* (reading only) `tree.c:560` computes `mt*(minnt*minnt/2+minnt/2)` in `int`, which overflows from about
  1626 by 1626 tiles on; the result is clamped to `1..mt`, for all of which C25 is proved.
* (reading only) `pzsyr2k.c:80,108` use the leading dimension of A for the tiles of B; harmless for the
  synchronous routines, where both descriptors have the same tile heights.
* (reading only) `control/async.c` and the kernels access `sequence->status` from several tasks
  without atomics.
* **`plasma_zstevx2`** (C28): an index range that starts inside a cluster of equal eigenvalues
  stores before the start of the result arrays; the array of multiplicities is taken to be zero
  on entry but never zeroed, so that a multiple eigenvalue is reported with false companions;
  with PlasmaNoVec the clean-up dereferences the null pointer `stein_arrays`; `zlaneg2` counts
  wrongly for reducible matrices (it stays at a zero of the recurrence), is not monotone, and
  counts u itself when u is an eigenvalue.
* **`plasma_zposv` without right hand sides** returns 0 without factorizing A, whatever A is; its
  documentation promises the factor on exit, and LAPACK computes it (C35).
* **`plasma_ztrtri` on a singular matrix** reports a zero diagonal element, but not always the
  first, as LAPACK does: the tests of different diagonal tiles are not ordered (C37).
* **`plasma_zungqr` with fewer reflectors than columns** (k < n) creates A and Q with k columns
  instead of n, so that columns k..n-1 of the promised Q are not written (C41).
  `plasma_zunglq` with k < m does the same with rows (C45).
* **`plasma_zgelqs` with m = 0** returns success and leaves B as it was, although the minimum norm
  solution is zero (C44).
* **`plasma_zgbtrf` and `plasma_zgbsv`** accept `ldab >= kl+ku+1` and document no other bound. LAPACK's array has
  2*kl+ku+1 rows. The translation for PlasmaGeneral copies up to nb-1 diagonals below the band, so that elements
  of other columns get into the tiles and, for m > n, elements behind the array are read and written back (C48).
  The tests allocate (klt+kut+1)*nb rows, which hides this.
* **The copy into band tiles writes before its tile** when m < n and the last tile row is not full: the end column
  `(it-jt)*nb+m+ku+kl+1` of `core_zlacpy_lapack2tile_band` may be negative and the last loop starts there. With
  nb = 4, m = 1, n = 8, kl = 0, ku = 1 the task of tile (0,1) zeroes element (0,3) of tile (0,0), with no
  dependence on the task that fills tile (0,0): a data race. Only elements outside of the band are hit (C48).
* `plasma_zlangb` accepts `ldab >= kl+ku+1` but reads the array with the diagonal in row kl+ku; with
  m = n = 2, kl = 1, ku = 0, ldab = 2 and the array (5, 0, 0, 0) the norm is 0 instead of 5. With kl >= m or ku >= n
  it returns PlasmaErrorIllegalValue as the norm (C52).
* `plasma_zgbtrs` accepts `ldab >= kl+ku+1`, but the factors with the fill-in of `plasma_zgbtrf` need more rows: with
  kl = 1, ku = 0, ldab = 2 the elements (1,0) and (0,1) are read from the same place (C61). With n = 0 < nrhs, kl >= n or
  ku >= n it returns PlasmaErrorIllegalValue (C61).
* `plasma_desc_general_band_check` requires kl < m and ku < n, so `plasma_zpbtrf` with kd >= n returns
  PlasmaErrorIllegalValue although its documentation and LAPACK allow it (C49). With kd = 0 it does not always report
  the first nonpositive element, because the tasks for different diagonal tiles are not ordered (C49).
* `plasma_zpbtrs` with n = 0 and nrhs > 0 or with kd >= n returns PlasmaErrorIllegalValue (C50). `plasma_zpbsv` with
  nrhs = 0 returns 0 without factoring, whatever the matrix (C51).
* `plasma_zgbtrf` with m = 0 or n = 0, with kl >= m or with ku >= n returns PlasmaErrorIllegalValue: it has no quick
  return, and the descriptor is refused (C62). `plasma_zgbsv` with kl >= n or ku >= n does the same, and with nrhs = 0 it
  returns 0 without factoring the matrix (C63).
* (reading only) `plasma_desc_general_band_check` tests PlasmaUpper twice (one should be PlasmaLower).
* (reading only) `pztbsm` with alpha other than 1 scales tiles outside the band wrongly; it is only called with 1.
* **`plasma_zgels` with n = 0 < m** (or its transposed counterpart) zeroes B, so that the rows that
  should hold the residual are lost; LAPACK zgels does the same (C46). An illegal `trans` is
  reported as PlasmaErrorIllegalValue instead of -1.
* (reading only) `plasma_zgeqrs` requires ldb >= max(1,m); its documentation says max(1,n).
* (reading only) `plasma_zstevx2`: `Control.error` is never looked at; the eigenvalue loop for
  the minimum tests for n instead of 0 and so never improves the lower bound (harmless).
* (reading only) `core_ztsqrt.c:107` compares the leading dimension of A1 with the number of rows of A2.
* (reading only) `plasma_zunmqr` tunes its tile size by the shape of C, `plasma_zgeqrf` by that of A: a
  tuning that depended on the shape would make them disagree (C10: the tuner is never active).
* (reading only) `core_zlacpy` with transposition and lower triangle runs one column too far when
  m > n.
* **plasma_zgesv and plasma_zgeinv on singular matrices** (C54): the tasks of `plasma_pzgeswp`
  (`compute/pzgeswp.c:52-58`) do not test `sequence->status`. After a panel has failed the later panels
  skip `plasma_core_zgetrf`, so their entries of `ipiv` stay what they were before the call (plus k*mb,
  `compute/pzgetrf.c:123-124`), and the interchange uses them as row numbers: accesses outside of the
  matrix for a singular matrix of more than one tile and an `ipiv` that was not initialised.
* **plasma_zgesv and plasma_zgeinv, four or more tile rows** (C54, C55): as for `plasma_zgetrf` (C23) the update of a tile column
  does not wait for the translation of all its tiles. Wrong solutions and inverses with status 0 and error
  codes for nonsingular matrices are possible.
* **`plasma_zpbsv` with kd = 0** can overwrite a part of B before it reports a failure, unlike `plasma_zposv` and
  unlike LAPACK zpbsv, which leave B alone (C57).
* `plasma_zlag2c` documents PlasmaSuccess as its only nonnegative return value; it returns 1 if an
  element is out of range, and has then converted an unpredictable part of the matrix (C56).
* `plasma_zgbmm` checks 0 <= kl <= m-1 and 0 <= ku <= k-1 whatever transa is. It therefore refuses
  every call with m = 0 or k = 0, which the documentation and plasma_zgemm admit, and legal bandwidths
  of a transposed A; others pass the check and make the creation of the tile matrix fail. Unlike
  LAPACK's zgbmv it takes A as a full array and uses elements outside of the band that share a tile
  with it (C58).
* `plasma_zgbset` clears the strips between the columns of the band as a matrix with leading dimension
  lda+1. This presumes lda = m: with padding it leaves elements outside of the band and clears padding.
  For tall matrices with m > kl+ku > n and kl > 1 it clears part of the band, and if kl > n+1 memory before the
  array. test/test_zgbmm.c calls it with lda = Am + padding (C59).
* **`plasma_zcposv` can use a wrong norm of A.** With more than one tile row (or nrhs > nb) the task that
  adds up the norm of A reads the array `work`, into which tasks of pdzamax for other tiles of X write; they
  are ordered only with tasks that name the same start address. A wrong norm makes the routine
  accept a solution that fails the documented test (C60). `plasma_zcgesv` has the same text.
* `plasma_zcposv` converts the whole array A to single precision, so a large number in the
  triangle that is "not referenced" makes the call fail (C60). It documents that A is overwritten with the
  Cholesky factor, which it never copies back. If the conversion or the single precision factorization
  fails, the sequence is already failed and the documented fallback to double precision does not happen: the
  call returns an error. The results of its three mallocs are not checked.
* **`plasma_zcgbsv` factors uninitialised memory.** `plasma_pzlag2c` converts the tiles from ku above to kl
  below the diagonal (`compute/pzlag2c.c:72-73`), but the factorization also uses the tiles up to ku+kl above
  it, and the single precision matrix comes from malloc (`control/descriptor.c:76`,
  `compute/zcgbsv.c:205-206`). If ceil((ku+kl)/nb) > ceil(ku/nb), the factors depend on what the memory
  contained (C65).
* **The mixed precision drivers allocate too small a workspace for large matrices.** Its size is computed as
  size_t and passed to `imax`, which takes int (`compute/zcgesv.c:214`, `zcposv.c:227`, `zcgbsv.c:231-232`,
  `include/plasma_internal.h:34-40`). For `plasma_zcgbsv` with the default tile size 256, a tridiagonal matrix of
  order 741376 and one right-hand side, 5792 doubles are allocated where the norm uses more than 2^31: a task
  writes past the end (C66). `zcgesv` and `zcposv` do so for tiles of order 1 and n = 46341.
* **Data race in `plasma_zcgesv`.** The last task of the norm of A reads the workspace
  (`compute/pzlange.c:105-109`); no taskwait follows it, and the tasks of `plasma_pdzamax` overwrite the workspace
  at other addresses than the one named in its depend clause (`compute/zcgesv.c:426, 458`). Unless n <= nb
  and (nrhs <= nb or 2n <= nb), nothing orders them (C67). `plasma_zcposv` has the same race (C60); in `plasma_zcgbsv` a taskwait of
  `plasma_pctbsm` (`compute/pztbsm.c:127`) comes between.
* `plasma_zgesdd` takes nb/4 as block size of the bulge chasing (`compute/zgesdd.c:498`); for tiles of order 1 to 3,
  which `plasma_set` accepts, it is 0 and `findVTsiz` and `findVTpos` divide by zero (C68).
* `plasma_zgesv` leaks the tile matrix A if creating B fails; with nrhs = 0 it returns success
  without factoring A. `plasma_zgeinv` never destroys its workspace W, checks lda
  against n instead of m, and accepts matrices that are not square (C55): it can return 0 for
  them, reads n entries of an `ipiv` of which min(m,n) are set, and for m > n (one tile) inverts m x m
  elements of a tile of n columns.

## 5. Assumptions per theorem

`Print Assumptions` answers "Closed under the global context" for every theorem in the
`Properties*.v` files, with these exceptions:

* `C26_zlange_frobenius_complex`, a statement about the complex numbers as pairs of the standard
  library's real numbers (`ComplexInstances.v`, `NormInstances.v`). It, `C35_zposv_no_rhs_refuted`, `C40_least_squares_minimises`, `C41_zungqr_n_columns_refuted`, `C44_minimum_norm_minimises`, `C44_zgelqs_empty_refuted`, `C45_zunglq_m_rows_refuted`, `C46_zgels_empty_residual_refuted` and the examples `C22_case`, `C38_complex`, `C40_complex`, `C42_complex` and `C46_complex`
  use the axioms of the real numbers (`ClassicalDedekindReals.sig_forall_dec`, `sig_not_dec`)
  and `functional_extensionality_dep`.
* `C60_norm_race_refuted` uses `functional_extensionality_dep`.
* `C28_midpoint`, about binary64 numbers as real numbers (Flocq): the same axioms and
  `Classical_Prop.classic`.
