# Formal model of libmpdata++ in Rocq (Coq 8.16.1)

Build: `cd rocq && coq_makefile -f _CoqProject -o Makefile && make -j4`.

## Approach

The library is a C++ template library of finite-difference solvers.  The code is
modelled function by function as small Gallina definitions; every definition
carries a comment with the file and lines it models.  Three layers are used.

1. *Integer/bookkeeping layer* - domain decomposition, ranges, index
   permutations, time-level indices, the `solve` loop, hooks, output schedule,
   buffers, barrier.  Plain `Z`/`nat`/lists, machine wrap-around explicit where a
   property is about it.
2. *Array-program layer* (deep embedding) - expressions over array elements,
   element assignments and array statements, grouped in phases separated by
   barriers.  One program text is given three meanings: sequential execution,
   interleaved execution by several threads, and its read/write footprint
   (bounds).  Values live in an arbitrary `Arith` record (carrier + operations
   with *no laws*), so theorems at this layer hold for IEEE floating point, for
   reals, for anything.
3. *Numerical layer* - the formulas of layer 2 evaluated in the real numbers `R`
   (stdlib Reals).  Rounding is not modelled here; each claim says "exact
   arithmetic".

Theorems that state a property are kept in `Properties*.v`, each closed by
`exact lemma` and followed by `Print Assumptions`.  Negative findings are
theorems named `..._refuted` with a concrete witness.

## Trusted base

* the Coq kernel (coqc 8.16.1), `vm_compute`;
* axioms reported by `Print Assumptions`: structural theorems are closed under
  the global context unless listed below; theorems over `R` use the stdlib
  axioms of the classical reals (`ClassicalDedekindReals.sig_forall_dec`,
  `ClassicalDedekindReals.sig_not_dec`,
  `FunctionalExtensionality.functional_extensionality_dep`);
* the reading of the C++ code: Blitz++ array semantics (element-wise loops,
  `Range`, reference-counted slices), `std::mutex`/`condition_variable`
  semantics, MPI point-to-point delivery are assumed, not proved.

## Plan per property

| id | model | proof |
|----|-------|-------|
| C01 | `min/max/slab` on Z | Euclidean division |
| C02 | same with 32-bit wrap | equality below the bound, witness above |
| C03, C04 | time-level index machine: `n[e]`, `mem->n`, `arrvec` index with 64-bit wrap, `is_last_eqn`, per-step cycles | invariant over histories; witness for stray bits |
| C05-C08 | `solve` loop as fuelled/inductive machine with abstract step | induction on the history |
| C09 | Courant number (max over threads), `scale_gc`, halo fill over R, 1D-3D (`ModelVarDt.v`) | algebra, positivity; witness in 1D with G |
| C10 | `scale`, homogeneity of the step over R | algebra + C36 |
| C11 | buffer selectors | parity |
| C12, C13 | barrier as transition system (mutex section atomic, waiting set, spurious wake-ups) | invariant; witness with wrapped counter |
| C14 | thread-count computations | arithmetic; witness in 3D |
| C15, C16, C17 | array programs of the solver, phases, interleavings | generic non-interference theorem + instantiation |
| C18 | reductions as threaded array programs (`ModelReduce.v`) | interleaving determinism, then induction over slices, any operation |
| C19 | footprints of the same programs against allocation ranges | case analysis + lia |
| C20 | agreement relation on memories | program-level non-interference |
| C21-C24 | cyclic fills; periodic memories | algebra / shift-equivariance by structural induction |
| C25 | formulas over R | algebra |
| C26 | open boundary fills of the 1D program | algebra; witnesses |
| C27, C28 | fill loops along the direction of the wall/pole (`ModelBcond.v`) | loop lemma (reads outside of what is written), index arithmetic; witnesses |
| C29 | transition system of processes, rendezvous per link, order of boundary conditions by rank parity (`ModelBcond.v`) | synchronisation invariant for progress, counting for termination, agreement with the global field as invariant |
| C30-C37 | formulas over R | lra/nra, field |
| C38 | rhs hooks in the run loop (`ModelRhs.v`), any arithmetic | invariant over histories of advance() calls |
| C39 | stash ring of one cell (`ModelVip.v`) over R | invariant over histories; witness with density |
| C40 | face interpolation, centred divergence over R | algebra |
| C41 | absorber hooks around an arbitrary advection over R | induction on steps; witnesses |
| C42 | `lap`, minimal-residual and k-direction conjugate-residual loops over reals; grid, boundaries (any linear halo fill), G, absorber arbitrary (`ModelPrs.v`) | residual = -divergence of the corrected velocity as loop invariant, minimisation step lowers the norm, fuel argument; concrete flows for the two refuted parts |
| C43 | output hooks around any solver in the run loop, HDF5 time axis (`ModelOutput.v`) | induction over steps, sorted-list equality; witnesses |
| C44 | recording state machine of one cell over R (`ModelOutput.v`) | invariant over step sequences; witnesses |
| C45, C46 | flags, permutations | finite case analysis, bit lemmas |
| C51, C52, C53 | 2D solver program with cyclic edges (`Solver2D.v`), any arithmetic | box-shaped validity analysis of the macro program (`Boxes.v`, `ProofsValid2D.v`, `ProofsRef2D.v`) against execution on the infinite lattice (`Lattice.v`), which commutes with shifts; concrete run for the refuted part |
| C54-C59 | functional form (`FunN.v`) of 2D cyclic runs over R | refinement of the program to the functional form (`ProofsFun2D.v`), closed formulae (`ProofsReal2D.v`, `ProofsAnti2D.v`), dimension-generic lemmas (`ProofsNumN.v`, `ProofsPerN.v`); concrete runs (`ProofsWitness2D.v`) for the refuted parts |
| C60 | published 2D formulae (`SpecMpdata2.v`) | algebra over R against the closed form of the functional form (`ProofsTextbook2D.v`) |
| C61, C62, C66 | functional form under signed permutations of axes (`ProofsSymN.v`, any dimension) | equivariance of the corrective velocity (`ProofsMirror2D.v`), induction on steps; `SpecSym2.v` states the relations between data |
| C63, C64, C65 | functional form over R (`ProofsLinN.v`, any dimension) | homogeneity and linearity of the corrective velocity (`ProofsLin2D.v`), induction on steps |
| C67 | functional forms of the 1D and the 2D solver | relation between fields on the line and fields on the plane kept by every pass (`ProofsSlice2D.v`); concrete run for the refuted part |
| C68 | 3D solver program with cyclic edges (`Solver3D.v`), any arithmetic | determinism of interleavings outside a set of dirty scratch locations (`ProofsDirty.v`, `ProofsThread3D.v`); concrete schedules for the refuted parts |
| C69, C70, C71 | as C68 | validity analysis with boxes in three dimensions (`ProofsValid3D.v`, `ProofsRef3D.v`) against execution on the infinite lattice; concrete run for the refuted parts |
| C72-C77 | functional form (`FunN.v`) of 3D cyclic runs over R | refinement of the program to the functional form (`ProofsFun3D.v`), closed formulae (`ProofsReal3D.v`, `ProofsAnti3D.v`), the dimension-generic lemmas of C54-C59; concrete runs (`ProofsWitness3D.v`) for the refuted parts |
| C78-C85 | functional form of 3D cyclic runs over R | closed formulae invariant under mirror images (`ProofsMirror3D.v`), permutation of axes, multiples, sums (`ProofsSymRun3D.v`, `ProofsLin3D.v`); equal to the published scheme (`SpecMpdata3.v`, `ProofsTextbook3D.v`) and to the 2D formulae (`ProofsSlice3D.v`); concrete pair of runs for the refuted part |
| C86-C91 | viscous forces of the dns, smg and smgani closures with all three differencings (`ModelStress.v`) over R on the lattice of cells | summation by parts over periodic boxes (`ProofsStress.v`-`ProofsStress3.v`), exactness on quadratics and invariance under rigid motion by algebra (`ProofsStress4.v`, `ProofsStress5.v`); witnesses for the refuted parts (`ProofsStress6.v`) |
| C92-C98 | Boussinesq solvers: hooks of a step in both variants (`ModelBouss.v`), heat flux and eddy viscosity of their closure (`ModelHeat.v`) | equations and trapezoidal rule in `SpecBouss.v`; algebra per step, induction over steps (`ProofsBouss.v`-`ProofsBouss3.v`), summation by parts over periodic boxes and columns (`ProofsBouss4.v`, `ProofsHeat.v`); witnesses for the refuted parts |
| C99 | the thread programs of `Solver2D.v` and `Solver3D.v` | race as in `Lang.v` (two threads, one element, one phase, at least one write); per-statement disjointness of the threads' ranges plus the phase conditions of C17 (`ProofsRace.v`); racing statements exhibited for every run with the limiter and in 3D (`ProofsRace3.v`) |
| C100 | the shallow-water solver (`ModelShallow.v`) | momentum: forcing in flux form; water and momentum: conservation of `FunN` steps on periodic fields (`ProofsPerN.v`); induction over steps |
| C101 | same | invariant: uniform depth, momenta, stash; divergence-free advector; constants preserved (`ProofsNum2D.v`) |
| C102 | same | sign preservation of `FunN` steps (`ProofsNumN.v`), induction over steps |
| C103 | same | simulation between runs; symmetries of `FunN` steps (`ProofsSymRun2D.v`), change of sign (`ProofsLin2D.v`) |
| C104 | same | simulation between runs in different units; multiples of fields (`ProofsLinN.v`) |
| C105 | same | translation invariance of all ingredients; zero fields stay zero |
| C106 | same | algebra |
| C107 | same | invariant momentum = velocity x depth; multiples and independence of hint_scale |
| C108 | same | witness: run computed on paper and in Coq |
| C109 | 2D runs in a box of rigid walls, from the program (`Solver2D.v`) | execution of each pass of the program with a frame check for the other arrays; fluxes antisymmetric at the walls after every exchange; telescoping; Kahan sums are sums in exact arithmetic (`ProofsWalls2D.v`) |
| C110 | same | witness: a run and its mirror image computed in Coq over Q (`ProofsWallsWit.v`) |
| C111 | stresses (`ModelStress.v`) of flows with uniform gradients | closed form of the stress for each differencing; invariance of the sum of squares under orthogonal matrices (`ProofsStress7.v`) |
| C112 | the shallow-water solver | unfolding of a step against a separate statement of the rule, invariant on the stored forcing and velocities (`ProofsShallow5.v`) |
| C113 | the 2D solver with rigid edges | the program of a one-pass run in a closed box computes the iterated upwind update with fluxes mirrored at walls (frames: statements writing halos keep inner faces and cells); sign and bounds by induction on steps (`ProofsWallsUp.v`); a run with a negative result |
| C114 | the 2D solver with open edges | the halo fills of the program of a one-pass run make every cell at the edges free of divergence and keep inner faces (`tame`, `ProofsOpen2D.v`); hence its ends are iterates of a reference step (`SpecOpen2.v`); sign and bounds by induction on steps (`ProofsOpenUp.v`) |
| C115 | as C114 | one iteration: the reference step commutes with exchange of axes; two iterations: refuted by a run in a uniform oblique flow |
| C116 | shapes, offsets and writes of `hdf5.hpp` (`ModelHdf5.v`) | row-major position of an element inverted (`ProofsHdf5.v`); writes of processes as induction over their order; ranges partition the dataset (`ProofsHdf5b.v`); 3D halo output refuted for all grids |
| C117 | `get_global_array` with its counts and displacements | sums of counts telescope to offsets of processes; overflow for all larger grids |
| C118 | `xdmf_writer` and its use by `hdf5_xdmf` (`ModelXdmf.v`) | invariant over sequences of output events; refuted for all grids with auxiliary fields |
| C119 | `base_name` | digits of a number decide the lexicographic order |
| C120 | `record_params` for all families of solvers, names of schemes (`ModelParams.v`) | content of the file tabulated per solver (`ProofsParams.v`); equal tables give equal parameters; Boussinesq with dns refuted for all parameters |
| C121, C122 | the 2D solver (`Solver2D.v`) with `Cyclic2` along x and `Rigid2` along y | refinement of a lattice infinite along x whose rows at the walls are filled along all of their length (`ProofsValidC2D.v`, `ProofsExchC2D.v`, `ProofsRefC2D.v`); fluxes telescope along x and cancel at walls (`ProofsChannel2D.v`); the lattice commutes with moves along x (`ProofsChannelRun.v`) |
| C123, C124, C125 | the 2D solver (`Solver2D.v`) with `Cyclic2` along x and `Rigid2` along y, and with `Cyclic2` both ways on a grid twice as wide | refinement of a lattice infinite along x as for C121, but with mirroring fills at both walls (`ProofsValidI2D.v`, `ProofsRefI2D.v`); on mirrored fields these fills do nothing and all parts of a step keep fields mirrored (`ProofsImgPt.v`, `ProofsImages2D.v`), so that the run equals that on the plane, and hence the doubly cyclic one (`ProofsImagesRun.v`); C124 and C125 by applying the doubly cyclic results to the image (`ProofsImagesNum.v`) |
| C126 to C130 | the 2D solver (`Solver2D.v`) with `Rigid2` at all edges, and with `Cyclic2` along x on a grid twice as long | refinement of a lattice infinite both ways (`ProofsValidB2D.v`, `ProofsRefB2D.v`): on fields mirrored at all four walls the fills agree with the lattice (`ProofsExchB2D.v`) and all parts of a step keep fields mirrored (`ProofsImgPt.v`, `ProofsImgPtX.v`, `ProofsKeepB2D.v`); the channel with the image refines the same lattice (`ProofsBoxRun.v`); C127 and C128 by applying C124 and C125 to the image (`ProofsBoxNum.v`); C129: with the images mirrored data are data moved by half a period (`ProofsBoxSym.v`); C130 from the doubly cyclic case (`ProofsBoxTr.v`) |
| C131, C132, C133 | as C123 and C126 | the data with their images meet the hypotheses of the theorems for cyclic domains (multiples, sign symmetry, superposition, toggled options, slices), whose conclusions are read off on the original half (`ProofsWallsLin.v`) |
| C134, C135 | as C123 and C126; mirrored data are `refl` and `refl_face` (`SpecMirrored.v`) | C60 and C61 for the mirrored cyclic run, whose periodic continuation is shown to be the reflection at the walls (`ProofsMirrored.v`) |
| C136 to C140 | viscous forces above a ground with surface drag, compact differencing (`ModelGround.v`: drag, the fills of divergence and stresses at ground and lid before and after the multiplication by viscosity; the rest from `ModelStress.v`) over R; cyclic sides | summation by parts with half weights at the ends (`ProofsHeat.v`), linearity of the fills in the surface stress, homogeneity in density (`ProofsGround.v`, `ProofsGround2.v`); energy by parts in all directions, the fills at ground and lid being out of reach of stresses doing work (`ProofsGround4.v`); witness with a linear wind (`ProofsGround3.v`); plane flow term by term (`ProofsGround5.v`), its refutation with varying density (`ProofsGround9.v`) |
| C141, C142, C143 | as C136; same fields inside of the domain, faster winds, mirror images and interchanged axes in `SpecGround.v` | relations between fields and stresses of two runs kept by each stage: divergence, strain, fills, viscosity, forces (`ProofsGround6.v`, `ProofsGround7.v`; examples `ProofsGround8.v`) |
| C144 to C147 | heat fluxes of `ModelHeat.v` | signs of fluxes at the faces of extreme cells, the fills doubling the one inner flux at ground and lid; linearity; relation between two runs (`ProofsWarm.v`); orientation term by term (`ProofsWarm2.v`) |
| C48 | time loop with the stop flag and barriers, any number of threads (`ModelPanic.v`) | invariant over interleavings in which the flag is raised in the safe part of a step, counting for termination; concrete schedule for the refuted part |
| C49 | functional form of the 1D solver (`Fun1D.v`), published formulae (`SpecMpdata.v`) | refinement: validity analysis of the program against the functional form, then algebra over R |
| C50 | functional form over R | algebra, induction on steps |

## 1D solver: from program to numerics

`Solver1D.v` is the program each thread executes.  `ProofsThread1D.v` shows all
interleavings agree with serial execution, `ProofsFun1D.v`-`ProofsDom1D.v` that
the serial program computes the functional form `Fun1D.v` (any arithmetic, any
options and boundaries), `ProofsReal1D.v`/`ProofsAnti1D.v` give closed formulae
over `R`, and `ProofsCons1D.v`, `ProofsNum1D.v`, `ProofsSign1D.v`,
`ProofsSym1D.v`, `ProofsScale1D.v`, `ProofsTextbook1D.v` the numerical properties,
put together for runs in `ProofsResults1D.v`.

Division in `R` is total (x/0 is some unspecified number), division in the code is
IEEE.  Where a formula could divide by zero the theorems carry hypotheses that
exclude it or the code's own guard (`pfc`) is active; conservation and the exact
equality of two runs do not depend on the value of such quotients.

The arithmetic of the `numeric_limits` constants is abstract: `eps` and `tiny` are
arbitrary reals (positive where needed).

## 2D solver

`Form2D.v` and `Solver2D.v` are the program of the 2D solver with cyclic, open and
rigid edges in any combination; `Foot2D.v`/`Proofs2D.v` its footprints,
`ProofsFill.v` the halo fills, `ProofsThread2D.v` the interleavings, and
`ProofsSched.v` an executable family of interleavings used for the counterexample
in `ProofsRefute2D.v`.  `Boxes.v`/`ProofsBoxes.v` are a validity analysis in which
the meaningful part of an array is a union of boxes; `ProofsExch2D.v` the cyclic
exchanges, `ProofsRef2D.v` the run against a reference semantics, `ProofsOne2D.v`
single-threaded runs with every option set (with `fct` and without `iga` threads
race, C17), `ProofsCyclic2D.v` the resulting statements about runs.

`FunN.v` is the functional form of a step for any number of dimensions;
`ProofsFunN.v`, `ProofsRen2D.v`, `ProofsNat2D.v` and `ProofsFun2D.v` show that runs
on doubly cyclic domains compute it.  `ProofsAnti2D.v` is the corrective velocity in
closed form over `R`, `ProofsNum2D.v`/`ProofsUnit2D.v` its size and zeros,
`ProofsResults2D.v` the statements about runs.  `SpecRun2.v` lists the conditions on
runs, `SpecNum2.v` the notions used in the statements.

Mirror images, exchange of the axes, multiples, sums, one-dimensional flows:
`ProofsSymN.v`, `ProofsLinN.v` (any dimension), `ProofsMirror2D.v`,
`ProofsSymRun2D.v`, `ProofsLin2D.v`, `ProofsSlice2D.v`; `SpecMpdata2.v` is the
published algorithm, `SpecSym2.v` the symmetries.

## 3D solver

`Form3D.v` and `Solver3D.v` are the program of the 3D solver on grids that are
cyclic in all three dimensions (cut along the second one).  The proofs follow those
in 2D: `Foot3D.v`, `Proofs3D.v`, `ProofsRen3D.v` (footprints), `Boxes3.v`,
`ProofsBoxes3.v`, `ProofsValid3D.v` (validity analysis), `ProofsExch3D.v`,
`ProofsRef3D.v`, `ProofsOne3D.v`, `ProofsCyclic3D.v`.  Some halo fills race with
each other: the outer threads read elements that others are assigning.
`ProofsDirty.v` therefore proves determinism outside a set of dirty locations,
`ProofsFill3D.v` and `ProofsThread3D.v` that only far corners of a temporary are ever
dirty.  `ProofsSchedH.v` runs given interleavings on hashed memories for the
counterexamples in `ProofsRefute3D.v`.

`ProofsNat3D.v` and `ProofsFun3D.v` refine the program to the functional form of
`FunN.v`; `ProofsReal3D.v` and `ProofsAnti3D.v` put the formulae in closed form over the
reals; `ProofsNum3D.v`, `ProofsUnit3D.v` and `ProofsResults3D.v` prove the statements
about runs; `ProofsMirror3D.v`, `ProofsSymRun3D.v`, `ProofsLin3D.v`,
`ProofsTextbook3D.v` and `ProofsSlice3D.v` those of C78 to C85.  `SpecRun3.v` lists the conditions on runs, `SpecNum3.v` the notions used.

## Viscous forces

`ModelStress.v` is the chain of functions that turns velocities into viscous forces
(gradients, deformation, viscosity, divergence of stress), in 2D and 3D and for the
three differencings, on fields over the whole lattice (periodic fields stand for
cyclic domains, whose halo fills repeat the fields).  The threads
and the halo exchanges are left out; `ModelGround.v` adds ground, lid and surface drag for
compact differencing, with horizontally periodic fields.

## Boussinesq solvers

`ModelBouss.v` is one step of the Boussinesq solvers hook by hook, with the members
they keep between hooks (right-hand sides, velocity forces, heating).  Advection,
the gradient returned by the pressure solver and the forces of a closure are
parameters, so the theorems hold for whatever these do.  `SpecBouss.v` states the
equations and the trapezoidal rule without reference to the order of hooks.
`ModelHeat.v` is what the Smagorinsky closure of these solvers adds: the heat flux
with ground and lid, and the eddy viscosity with Richardson number, the latter over
numbers extended by infinities and NaN.  The copy of the viscosity of the second
level to the ground (boussinesq_sgs_common.hpp:100-111) is covered by the viscosity
being arbitrary in the heat budget.

## Shallow-water solver

`ModelShallow.v` follows one time step of `shallow_water` (2D): velocities from
momenta and depth, extrapolation in time with the stash, interpolation to faces,
half of the old forcing, advection of the three fields by the functions of
`FunN.v` (what the thread programs compute on cyclic domains: `run2_fun` in
`ProofsResults2D.v`), new forcing
and half of it.  Fields are functions on the whole lattice, periodic ones
standing for a cyclic domain.  Division by a zero depth (threshold zero) is
outside the relation `sw_run`, so no theorem speaks about states after it.
Simplified: trapezoidal scheme and constant time step only, no velocity
absorber, no third-order options (they need time derivatives of the advector).
Theorems that do not mention `second_order` do not need that restriction in the
model, but only speak about the code with it.  Not modelled: the 1D variant,
other edges.

Not modelled (so far): other edges than cyclic in 3D, the gnuplot format,
the HDF5 library (its hyperslab writes are `h5_write` of `ModelHdf5.v`: selected elements matched in
row-major order, selections out of bounds undefined), XML syntax of .xmf files,
MPI transport itself, timers,
build system, Blitz++ expression templates; the pressure solver `pc`
(solvers/detail/mpdata_rhs_vip_prs_pc.hpp), which cannot be instantiated: line 53 calls
`lap` with three of its five arguments and line 79 calls `precond` without its argument.

Reading `seeded/LOG.jsonl`: `theorems_failed` lists theorems whose proofs no longer go through
after the edit. This can include theorems that stay true of the edited model but whose proof
scripts follow the shape of the edited definition; for the rows on `ModelGround.v` and
`ModelHeat.v` failing lemmas were assumed in the scratch copy in order to see later failures.
