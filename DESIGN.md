# A Rocq model of platoanalyze: design

Section 4 gives the plan per property, section 5 the findings (places where the faithful model
violates a property), section 6 the trusted base: kernel, axioms per theorem, modelled and
unmodelled code.  Sections 1-4 were written before the proofs and grow with the model.

## 1. What is modelled and how

The source in /repo is C++17 over Kokkos/Omega_h/Sacado.  The model is a set of small total
Gallina functions, one per modelled C++ function, each with a comment citing file and lines.

* **Scalars.**  `Plato::Scalar` (double) is idealised as exact arithmetic.  Purely algebraic
  code (sparse matrices, assembly, boundary conditions, adjoints, time integrators) is modelled
  over an arbitrary commutative ring or field given as an explicit record (`CRing`, `CField` in
  `Base/Field.v`), so that the same definitions run on `Z`/`Qc` (for executable examples and counterexamples)
  and apply to the reals.  Code that uses order, `sqrt`, `exp`, `sin`, ... is modelled over
  Coq's `R`.  Rounding, NaN and infinities are not modelled.
* **Ordinals.**  `Plato::OrdinalType` (int) is `nat` or `Z` without overflow, except where
  overflow is itself the subject.
* **Memory.**  Views are lists; reads and writes out of bounds are a distinct outcome
  (`None`/`OOB`) where the property is about memory; elsewhere vectors are functions `nat -> K`
  used up to an explicit length.
* **Parallelism.**  A `Kokkos::parallel_for` is a set of work items; a schedule is either a
  permutation of atomic work items or an arbitrary interleaving of their individual
  read/write/atomic-add steps, whichever the property needs (said in each file).
* **External calls.**  Linear solvers, sparse matrix-matrix kernels, file parsers and automatic
  differentiation are oracles: universally quantified functions, with the assumed behaviour
  (e.g. "the solver returns a solution") as an explicit hypothesis of the theorem.

## 2. Layout

`rocq/theories/`: `Base/*.v` (rings, sums, dense linear algebra); per area a `*Model.v`
(definitions only), `*Spec.v` where a separate specification helps, `*Proof.v` (lemmas),
`*Props.v` (theorems `exact`ed from lemmas, with `Print Assumptions`).
Naming: property `C07` has theorems `C07_...`; `_partial` marks a proved part of a property,
`_refuted` a proved counterexample.

## 3. Kinds of statements

Each property theorem is stated against a specification written independently of the
algorithm (dense sums, derivatives, multisets, grammar denotations), and is followed by an
`Example` showing that its hypotheses are met by a concrete non-trivial instance.

## 4. Plan per property

| id | model | proof method |
|----|-------|--------------|
| C01-C03 | CRS arrays as lists, per-condition work items of `applyConstraints`/`applyBlockConstraints`; steps interleaved arbitrarily | invariant over interleavings, then linear algebra; C03 by computed counterexamples |
| C04 | node-set lists to dof/value arrays with offsets | induction over the list of conditions |
| C05-C06 | star graph + diagonal insertion, entry lookup, element scatter | induction over rows/elements; permutation invariance of sums |
| C07-C09 | block CRS index arithmetic, exchange sort, product | induction, `Permutation`, `Sorted`, dense denotation |
| C10-C11 | per-cell loops on lists | induction; C11 out-of-bounds outcome |
| C12-C16 | Newton loop of the elliptic problem, constraint application, adjoint; solver oracle | linear algebra over a field; counterexamples in Qc |
| C17-C23 | integrator formulas, step loops and backward loops over lists of step operators | induction over steps |
| C24-C27 | criterion combinators | algebra; Coquelicot derivatives |
| C28-C30 | penalty functions over R | real analysis |
| C31-C37 | element kernels over a field / R | ring, field, nra |
| C38-C39 | local state update over R | case analysis on the yield branch; induction over histories |
| C40-C45 | Newton control loop, condensation, pseudo-time loop, adjoint recursion | fuel-free termination measure, linear algebra, induction over steps |
| C46-C49 | character-level lexer and tree builder | stack invariant; induction over expressions |
| C50-C53 | CRS transpose with atomic slots, filter weights, geometry | induction, permutation |
| C54-C55 | smoothed functions, element weights | Coquelicot derivatives, field |
| C56-C57 | face loop | sums, interleaving counterexample |
| C58-C61 | application state machine, data map with shared views | invariants over operation sequences |
| C62-C63 | scalar loops over R | derivative, induction |
| C64 | history-dependent criteria as sums over steps | derivatives of sums and p-norms; counterexample |
| C65-C67 | projections and penalty parameter setters over R | real analysis, case analysis on the keys |
| C68-C70 | volume/face kernels, flux kernels, user-given stiffness | `field`, sums; completeness of the keyword table |
| C71 | plasticity solve flag over a history of calls | invariant |
| C72-C73 | point location in mesh-map construction | convexity of simplices; UB outcome |
| C74-C77 | level-set integrals, arrival times, speed normalisation, chamber pressure iteration | Coquelicot derivatives, monotone iterations |
| C78-C82 | body and surface loads, cubature, basis functions | moments of simplices by induction on monomials, sums over faces |
| C83-C87 | targets, exports, output tables of the application | state machine invariants over operation sequences |
| C88 | sparse products and static condensation; kernels as specified oracles | dense denotation |
| C89-C91 | stabilised (VMS) problem loop and its gradients | linear algebra over a field, explicit surplus, counterexamples |
| C92 | continuation calls over the evaluator tables | induction over evaluators and calls |
| C93 | augmented Lagrangian stress criteria | monotone histories, derivatives |
| C94 | orthotropic material constants over R | completion of squares |
| C95 | thermoelastic residual on a mesh of simplices with several materials | affine fields have constant gradients; cell stress vanishes; computed counterexample |
| C96 | all static residuals and the heat equation on a mesh | assembled work is the sum of cell works; divergence is dual to strain and gradient |
| C97 | energy criteria next to their residuals | same duality, evaluated at the state itself |
| C98 | elastic energy along a line of states | exact quadratic expansion, then the limit |
| C99 | residuals as bilinear forms | exchange of double sums under symmetry |
| C100 | transient residuals with zero rate | entry by entry equality |
| C101 | thermomechanical residual with scaling s and with unit scaling | row by row comparison of the assembled residuals |
| C102 | reader of the thermomechanical material | case analysis of the reader; comparison with Hooke's law and polynomials |
| C103 | energy criterion with its option | equality of the two runs, computed counterexample |
| C104 | thermal and thermomechanical residuals with prescribed flux | row by row comparison |
| C105 | electromechanical residual and material reader | row by row comparison, case analysis of the reader |
| C106 | homogenised stress, effective energy, forced elastic residual | work identity, symmetry of the bilinear form, completing the square |
| C107 | stabilised elastic residual against the elastic residual | row by row comparison for isotropic stiffness |
| C108 | stabilised elastic residual | work identity, symmetry of the bilinear form |
| C109 | gradient projection residual, stabilised residual, scaling defaults | affine fields, row formula |
| C110 | stabilised energy criterion | work identity |
| C111 | the keyword dispatch with its build options | case analysis against a table of offers |
| C112 | spatial model, block-wise sums | sums over permutations |
| C113 | worksets and their placement, bounds-checked | invariant over the blocks; out-of-bounds by counting |
| C114 | assembled values and transposed Jacobians | derivative of finite sums, action of the assembled matrix |
| C115 | p-norm kernels and criteria over a mesh, C's pow with its undefined cases | roots of sums, Minkowski from convexity, Bernoulli for the limit, witnesses |
| C116 | the norm factory over typed parameter lists | case analysis; factoring the weight out of the sum |
| C117 | the Barlat kernel with acos, sqrt and pow as partial functions | triple-angle identity; reality of the roots by Lagrange's identity |
| C118 | the mass moment kernels and the mapped cubature point over a mesh with densities | sums over point masses; determinants for affine motions; Coquelicot integrals for the bar; witnesses |
| C119 | reading of densities and lists, the itemized and the ten-property least squares functions, the eigenvalue routine as an oracle | sum of weighted squares zero iff all terms are; inverse of the rotation; permutation of lists |
| C120 | inertial content, Rayleigh stress, projection and assembly of the transient mechanics residual | virtual work cell by cell; strain and mean of affine motions |
| C121 | the same residual in continuous time, in the Newmark relations and in the time loop of C20 | derivative of the energy; polarisation over one step; the loop's states satisfy the equations of motion (C20), so the step theorem applies; Cauchy inequality for the mass matrix; witnesses |
| C122 | the parameter reads of the four elastic laws and the plot arrays | case analysis; witnesses |
| C123 | input, value and gradients of the 'Solution' criterion | loops as sums over the node set; derivative of the magnitude; Cauchy inequality; case analysis of the input; witnesses |
| C124 | computed fields, their lookup and the initial-state loops of both transient problems | induction over the assignments with a frame condition; acceptance as an equivalence; witnesses |
| C125 | the three transfers of a block matrix to a library, the vector copies and the solve | library as an oracle; entries by sums over rows and blocks; the product of C09 |
| C126 | the settings read by the three stacks, the stack selection and the reports | case analysis over all parameter lists; witnesses |
| C127 | the function factories of every physics, the penalty constructors, the criterion factories and the criteria loops | a table of names as specification; case analysis over names for all parameter lists; induction over the criteria list |
| C128 | theories/Measures: the three local measures of a cell, on the kernels of Element and Residual, with their constructors | bounds and splits by the algebra of positive parts; principal strains through C35 and C36, oddness of the Jacobi rotations and invariance of the squared norm; plane strain by field; refutations on one triangle |
| C129 | theories/Plasticity/Global*: the cell residual of both plasticity physics on the kernels of Element, Stab and J2, assembled over any mesh | virtual work of every kernel, then algebra per cell; rigid and affine motions through C32; definedness by induction over the cells |
| C130 | the two work criteria, their sum over a history, the zero state before the first step, and where the temperature scaling is read | telescoping sums by induction over the history; the trapezoid rule is exact for a symmetric law; dissipation from C38 (return mapping) and the Cauchy-Schwarz inequality; refutations on one tetrahedron and two triangles |
| C131 | the principal stress output of plane cells | through C34 and C35; refutation on a free heated sheet |
| C132 | stabilised thermoelastic residual next to the thermoelastic residual of C64 on the same mesh | entry by entry, cell by cell, from the pressure law; refutation on one held heated triangle |
| C133 | the same residual: virtual work of rigid motions, temperature rows, uniform expansion, differences of residuals | virtual work as in C63, C64 and C80; bilinear forms |
| C134 | thermoelastic materials from a parameter list | case analysis over the entries |
| C135 | criteria of a load path as trees; workset rows, data map, sum over steps | induction over trees and domains; derivative of finite sums; refutations by computation |
| C136 | construction with fuel; None means not finished | induction over fuel, well-founded induction over the part-of relation, mutual induction over descriptions |
| C137 | solution views, mesh tags, the output functions and their dispatch, frames on disk | loop invariant over steps; concat/nth lemmas for copies; table of fields as separate specification |
| C138 | data map with saved states, element tags | fold over named tables with unique keys; refutations by invariant and by computation |
| C139 | request, checks, dimension dispatch, factory, solve and output as one program with exit code | case analysis; substring search against an occurrence specification |
| C140 | the store of level sets of both geometry classes (step counter, columns, times), the burn loop with the geometry it leaves | induction over the steps of an explicit store; the loop's number of turns from C62 |
| C141 | shared data map, objective, difference quotients, operations, import and export | finite map lemmas; mean value theorem |
| C142 | token loops with uninitialised entries as [None] | loop invariant with division and remainder of the count |
| C143 | cell volume, weight loop, weighting, sum over cells | measure identity in each dimension; monotonicity of sums |
| C144 | interpolation at the cubature point, weighting, sum over cells | as C143 |
| C145 | element kernels of the complex residual, assembly | each part against the time domain kernels, then assembly lemmas; computed counterexamples on a bar |
| C146 | the adjoint damping kernel in the same residual | symmetry of the two energies; computed counterexample |
| C147 | complex energies, default frequency of the objective | energies against virtual work of C145 |
| C148 | one linear solve per frequency with imposed supports | bc_system of the dense model (C12) |
| C149 | accumulation of partials and the loop of adjoint solves with its shared right-hand side | adjoint identity (C14); computed counterexamples |
| C150 | reading of fields, row search, cell sums | sums of squares; loop invariants of the scattered writes |
| C151 | maps of named vectors with import and export | case analysis on the map lookup |
| C152 | loops of MapCriterionGradientX over inputs and entries | loop invariant; the gradient as derivative along every direction |
| C153 | imports and calls of ComputeFiniteDifference as a fold over the indices, ComputePerturbedMLSField | induction over the history; mean value theorem |
| C154 | five point formula, loop over step sizes, minimum | iterated mean value estimate of the fifth order remainder |
| C155 | the three workset products and the loop over entries | flat index arithmetic, sums of the estimate of C154 |
| C156 | the main functions of the coupled programs over oracles for every call that can throw | case analysis over all oracles |
| C157 | constructor, destructor and counter of the Python module as a step function | invariant over all histories |
| C158 | reading of Python values, dispatch on data type and name | case analysis, lemmas on splitting names |
| C159 | residuals and energies of Residual/ResidualModel.v on a mesh and on the same mesh placed by x -> t + Q x | FrameProof.v: gradients are dual to the corner differences, so a regular affine map turns them; volumes through the Gram determinant; strains and stresses as tensors; contraction invariant under Q; residual entries read off the work with unit displacements. Refutation of the anisotropic version by a computed triangle |
| C160 | the same residuals on a mesh with other node numbers, cell order and corner order | corner permutations move gradients and keep the absolute determinant (24 cases); sums reindexed by the inverse; lists by Permutation; entries from works with unit vectors |
| C161 | the same residuals on a mesh with coordinates times s and materials times k | gradients divide by s, volumes multiply by s^d; work with the same virtual field |
| C162 | the static residuals of Residual/ResidualModel.v for two fields with the same conditions | the work of the difference of the residuals in the difference of the fields is zero, so every cell is strain free; strain-free cells that share a facet move together (SupportProof.v: rigid_body); computed counterexamples without supports and for a part hanging by one corner |
| C163 | residuals and energies of elasticity and heat conduction | one abstract section on symmetric linear maps with nonnegative form; linearity, symmetry (C99) and monotonicity in the penalised density cell by cell |
| C164 | static residuals of affine fields at one node | determinant times gradient at a corner does not depend on that corner, so the two cells at a facet cancel; gradients of a cell sum to zero, so the entries of a node are minus a sum over the facets at it; reordering by Permutation |
| C165 | stationary solve composed with the residuals of the bodies | uniqueness of the equilibrium (C162) gives a trivial kernel, elimination over the reals gives an inverse, reciprocity gives the symmetry the conditions need, then C12 |
| C166 | the solution as a function of the design, composed with the adjoint gradient | a left inverse of the constrained matrix bounds the change of the solution by the change of the coefficients, so it is differentiable and its rate keeps the linearised equations; then the adjoint identity C14; positivity of densities is open |
| C167 | the thermoelastic forces as an affine map, its matrix read off from unit vectors, the Newton loop of the stationary problem | uniqueness (C162) makes the constrained matrix non-singular; a further step with zero increments at the prescribed entries solves the free rows exactly; in one step the displacement part of the solution lies in the kernel of that matrix because temperature rows do not see displacements |
| C168 | the heat equation residual as two symmetric forms, the marching loop | zero conduction and zero storage of a difference in every cell make it zero at every corner, so each step is unique and its matrix regular; energy argument with the temperature at the intermediate time |
| C169 | the same | constant test temperature: conduction drops out, the stored heat follows the trapezoid rule of the supply with a zero initial rate |
| C170 | the dynamic residual as mass, damping and stiffness forms, the Newmark loop | a difference of two steps has velocities and accelerations proportional to its displacements, so its inertia, damping and strain energies vanish: it is a rigid motion that keeps all centres; the triangle is computed |
| C171 | the same, with energies and momentum from the specification | the midpoint identity C121_step and the rigid test motions of C120_momentum along the computed steps |
| C172 | Two stationary problems (Problem/EllipticModel) posed by the whole-body residuals of Residual/ResidualModel | Uniqueness (C162) is carried from one problem to the other through a relation of fields under which agreement of entries carries over; invariance of the residuals (C159, C160, C161) makes the pulled-back solution an equilibrium of the first |
| C173 | The same problems, with the internal forces of C165 | Symmetry of the work form (C99) makes the forces linear; the combined solutions are an equilibrium, which is unique |
| C174 | The elastodynamic and the elastostatic residual of C96 and C120 | Work of the residual on a unit field gives one entry; the sums are matched cell by cell |
| C175 | The same residual on two meshes | C174 splits the forces; C159 and C160 carry the elastic parts, sums over corners and cells the inertia |
| C176 | Whole runs of the stepping loop on two problems | Induction on the steps: the second run pulled back satisfies the equations of the first, whose step is unique (C170) |
| C177 | Three runs of the stepping loop on one body | Induction on the steps: the combined states satisfy the equations of the step, whose solution is unique (C170) |
| C178 | A run of the stepping loop and the static solve | Induction on the steps with C170, C174 and C165 |
| C179 | Whole runs of the trapezoid loop on two or three problems | Induction on the steps: the second run pulled back, or the combined states, satisfy the equations of the step, whose solution is unique (C168); C159 and C160 carry the residual |
| C180 | A run of the trapezoid loop and the static solve | Induction on the steps with C168; the distance to the steady state is a run without supplies, whose stored square decays; C165 gives the static solution |
| C181 | GetCustomExpressionValue up to the equation: the two getline loops over the file, the header test and the last entry of a line | Inductions on the lines for both loops; search functions against declarative substrings and entries; two files on which the claim fails are computed |
| C182 | unused, add_timings and the report of input_file_echo on trees of parameters with used flags | Induction on trees; the loop is characterised by membership; reaches and has_used are inductive predicates that do not mention the code |
| C183 | setParameters on trees of parameters | The loop is characterised name by name, then induction on the source tree |
| C184 | StabilizedElastostaticResidual::evaluate on the mesh of C107 under a change of the unit of length | Cell by cell: strains and pressures unchanged, gradients divided by s, measures times s^d; the stabilisation carries Rpower s (2 d / 3), which is s^2 exactly in 3 dimensions |
| C185 | transient heat conduction in a body and in a similar one | the equation of the second body is a multiple of the first one's, so its steps, with rates rescaled, are steps of the first body; uniqueness (C168_steps) and induction on steps |
| C186 | the motion of a body and of a similar one | inertia, stiffness and damping forces (C174_parts) all scale by k s^(d-1); steps of the second body scaled back are steps of the first, which are unique (C170_steps); induction on steps |

No property is dismissed as inexpressible; floating-point effects are outside all of them.

## 5. Findings

Each item is a place where the code, read faithfully, violates the property a user would rely on.
Items with a theorem name are proved about the model; the others are readings of the source noted on the way.

**Boundary conditions, sparse matrices, assembly**
* Eliminating a non-zero prescribed value subtracts the *row's* entries from the right-hand side where the column's are needed, and overlapping conditions interfere (`C03_unsymmetric_refuted`, `C03_overlap_refuted`).
* The block-to-plain conversion reads the row map one past its end (`C07_in_bounds_refuted`).
* `fill(ordinals)` runs over the output's size, not the list's (`C11_fill_refuted`).  `matrix_times_vector` does not compare inner extents; `blas2::axpy<N,offset>` scales the output.
* `MatrixMinusMatrix` compares only the numbers of columns (`C88_heights_unchecked`).  `CreateMatrix` leaves sizes unset, after which products throw.
* `Assemble` guards do not catch the "not found" ordinal -1.

**Elliptic, parabolic, hyperbolic problems**
* With several Newton steps a small residual at the zero state returns before the boundary conditions are imposed (`C13_refuted`).
* Adjoint gradients are wrong for unsymmetric Jacobians and for non-zero prescribed values (`C15_*`, `C16_displacement_driven_refuted`, `C19_*`, `C22_*`); the adjoint throws without Dirichlet conditions.
* Prescribed values accumulate over repeated parabolic solves (`C18_refuted`).
* The first Newmark step starts from zero acceleration (`C21_initial_acceleration_refuted`); the backward sweep evaluates loads at shifted times (`C22_time_shift_refuted`).
* `criterionGradient` ignores the solution it is given; `solution` returns views that later solves overwrite.

**Criteria and penalties**
* Composite criteria pass the time step where the step index belongs (`C25_refuted`); p-norm gradients over several steps are wrong (`C64_pnorm_steps_refuted`).
* `LeastSquaresFunction` reads a misspelt list "Criterial"; the mass-properties density is read from a list that does not exist, so it is always 1.
* An initial exponent above the bound is lowered by the first update (`C29_monotone_refuted`); missing keys install values nobody gave (`C66_*`).
* The Heaviside projection exchanges void and solid (`C65_reversed_refuted`).
* The stabilised vector function advances its first block twice per continuation call (`C92_projection_refuted`).
* Augmented Lagrangian: mass multipliers leave their bounds, structural mass is summed over the wrong cells for sub-domains (`C93_mass_lower_refuted`, `C93_mass_normalised_refuted`); the branch that relaxes the multipliers is never reached.

**Element kernels and materials**
* Shear strains are added to what the output held (`C32_dirty_output_refuted`).
* The temperature-dependent stiffness of a bar, the Cauchy stress of a bar and a solid, principal stresses under negative shear, and the von Mises stress of a bar are wrong (`C33_functor_refuted`, `C34_*`, `C35_refuted`, `C37_bar_refuted`); the length of a bar is divided by six (`C68_volume_refuted`).
* Orthotropic input: a zero shear modulus is accepted, edge values divide by zero, and the plane material is plane stress where the isotropic one is plane strain (`C94_refuted`, `C94_edge_not_a_number`, `C94_isotropic_sheet_differs`).

**Plasticity**
* A stagnating Newton iteration counts as converged (`C40_stagnation_refuted`); pseudo-time retry counts may never grow, be cut, or shrink to none (`C42_*`); increments below tolerance are never imposed (`C43_early_stop_refuted`).
* Reaction forces accumulate over solves (`C44_repeated_solve_refuted`); gradients use the current instead of the previous projected pressure (`C45_penalised_projection_refuted`); a failed solve poisons later ones (`C71_recovery_refuted`).

**Expressions**
* `-x^2` is `(-x)^2`; `pow(1+2,2)` is 5; `sqr` at the end and empty exponents read outside the text (`C46_minus_power_refuted`, `C48_pow_arguments_refuted`, `C49_safe_refuted`).  The conditional needs a difference of at least one (`C63_small_difference_refuted`).

**Mesh map, level set, rocket**
* The last acceptable parent wins over a better one, and a vertex outside the mesh is undefined behaviour (`C52_best_refuted`, `C73_outside_refuted`).
* Normalising speeds flips their sign when none is positive (`C76_sign_refuted`).  A non-positive time step never ends the rocket loop.

**Loads**
* Two loaded sides of one cell race (`C57_race_refuted`); pressures on problems with more components than dimensions and natural conditions beyond the field's components touch memory they do not own (`C79_extra_component_refuted`, `C81_wild_write_refuted`); interior faces in a side set count twice; one- and two-dimensional `ComputeSurfaceArea` have empty bodies.

**Application**
* Operations after a mesh reload run on the initial parameters; a gradient after a parameter change uses the old solution; after a refused definition the next call runs another definition's problem (`C58_*`).
* Empty parameters reset on every call (`C59_empty_refuted`); shape gradients exported to HDF5 deliver nothing and poison later exports (`C60_shape_hdf5_refuted`); saved steps share storage (`C61_saved_refuted`); target indices are unchecked (`C83_unchecked_refuted`); exporting through a mesh map changes the exported field (`C84_repeat_refuted`); HDF5 and shared data disagree about steps (`C85_agree_refuted`); criteria of one name in two definitions share a result (`C87_shared_refuted`).

**Stabilised problem**
* The projection, its scaling and its sign are inconsistent with the coupled equations, one step solves nothing, and both gradients carry a surplus (`C89_refuted`, `C90_refuted`, `C91_refuted`).

**Residuals and energies**
* The shear part of a thermal expansivity is read and dropped (`C95_refuted`); one-dimensional thermomechanics reads outside the expansivity array (`C95_bar`, VoigtMap<1> holds 1 where 0 is meant).
* A temperature-dependent conductivity disappears from the transient heat residual and from both thermal energy criteria (`C100_no_conduction`, `C97_thermal_zero`): they call the flux operator that only knows the constant tensor.
* With a reference strain the derivative of the internal elastic energy is not the internal force (`C98_refuted`).
* With 'Temperature Scaling' the reference temperature and temperature-dependent laws are evaluated at the scaled unknown (`C101_refuted`).
* A modulus whose form disagrees with 'Temperature Dependent' gives a material without stiffness and no message (`C102_mismatch`, `C102_refuted`); components written directly in 'Elastic Stiffness' are refused (`C102_direct`).
* 'Include Thermal Strain' = false has no effect (`C103_refuted`).
* A prescribed heat flux has opposite signs in thermal and in thermomechanical problems (`C104_opposite`).
* 'Alpha' of an electromechanical material is ignored in one and two dimensions (`C105_ignored`).
* The homogenisation criterion without 'Cell Problem Forcing' uses an uninitialised column, and reads past a short 'Assumed Strain' (`C106_input_refuted`).

**Stabilised elasticity**
* In two dimensions the deviatoric stress subtracts a third of a two-entry trace, so the mixed formulation never equals the displacement formulation (`C107_refuted`); in one dimension the moduli are zero over zero (`C107_bar`).
* The projected gradient and the material read 'Pressure Scaling' from different lists with different defaults; with the defaults the stabilisation disturbs linear pressure fields (`C109_refuted`, `C109_scalings`).
* The energy criterion leaves out the work of shear stresses (`C110_refuted`).

**Problem selection and element blocks**
* 'Physics' = StructuralDynamics is accepted and yields a null problem; Electromechanical ignores 'PDE Constraint'; Mechanical with an unknown equation is not refused in a build without the hyperbolic problem (`C111_*_refuted`).
* A spatial model without domains, with a block named twice or with blocks left out is accepted (`C112_no_domains_refuted`, `C112_overlap_refuted`).
* With several blocks the local equations of plasticity access memory out of bounds in the derivatives with respect to configuration and control, and misplace rows in the flattened residual (`C113_*_refuted`).
* The shape gradient of plasticity problems leaves out the boundary loads (`C114_plasticity_refuted`).

**Stress and flux norms**
* A fractional 'Exponent' is cut to an integer inside the elements and not in the final root, so the criterion no longer scales with the load (`C115_exponent_refuted`); the flux criterion cuts both (`C115_flux_truncated`).
* Shear stresses are counted once, so the value depends on the orientation of the body (`C115_rotation_refuted`).
* The static criterion leaves the material's reference strain out of the stress (`C115_reference_refuted`); the dynamic one has it.
* The flux criterion is zero for temperature-dependent conductivities (`C115_flux_refuted`).
* An unknown 'Normalize' type is ignored (`C116_unknown_refuted`); 'Barlat Exponent' is ignored as a real number and an error as an integer (`C116_barlat_exponent_refuted`).
* The Barlat norm of an unstressed element is 0/0 (`C117_unloaded_refuted`), and its gradient in uniaxial stress divides by zero (`C117_gradient_refuted`).
* A cell is a point mass at its middle for the second moments: a solid body can have a zero moment of inertia, and a finer mesh changes the value (`C118_inertia_refuted`, `C118_refinement_refuted`).
* The elliptic mass properties criterion ignores the material's density and looks for its list outside 'Criteria' (`C119_elliptic_density_refuted`, `C119_elliptic_criteria_refuted`); the geometric one is right.
* The transient internal energy criterion is twice the strain energy (the elliptic one has the factor 1/2) (`C121_criterion_refuted`).
* The one-point mass matrix is singular: a rod whose ends accelerate apart feels no inertia (`C121_mass_refuted`).
* A cubic material ignores 'Mass Density', wrong-typed entries of three laws are silently ignored, and the 'strain' and 'velgrad' plots of transient mechanics hold the stress (`C122_entries_refuted`, `C122_wrong_type_refuted`, `C122_plot_refuted`).
* The gradient factor of the p-norm criteria is infinite for an unstressed body, whose value is zero (`C115_gradient_refuted`).
* The 'Solution' criterion divides by zero for an empty node set and has a nonzero gradient with respect to steps its value does not depend on (`C123_empty_refuted`, `C123_steps_refuted`).
* Initial states are always refused for mechanics and thermomechanics in one and two dimensions (`C124_mechanics_refuted`, `C124_thermomechanics_refuted`).
* A misspelt unknown in the initial state of a heat or thermomechanical problem is written before the start of the state vector (`C124_unknown_refuted`).
* Epetra is given the first rows of a matrix that has more rows than the mesh has nodes (`C125_rows_refuted`); AmgX debug assertions reject an empty last block row (`C125_assertion_refuted`).
* The Tpetra solver ignores 'Tolerance' given as a double and throws if it is an integer (`C126_tolerance_refuted`).
* Tpetra and Epetra solves that do not converge return as if they had (`C126_failure_refuted`).
* In mechanics an unknown penalty type or an unknown 'Scalar Function Type' gives a null evaluator instead of an error (`C127_equation_unknown_refuted`, `C127_criterion_unknown_refuted`).
* The stabilised mechanics criterion reads its penalty from a list beside 'Criteria', so its own 'Penalty Function' list is ignored (`C127_stabilised_refuted`).
* Elliptic problems drop criteria of unknown 'Type' silently (`C127_kind_refuted`).
* The tensile energy measure of a plane cell with negative shear strain loses the tension that shear carries: a triangle in pure shear has tensile energy in one direction and none in the other (`C128_principal_refuted`, `C128_reverse_refuted`).
* The von Mises measure of a plane cell, whose stiffness is that of plane strain, leaves the stress across the plane out: its square is too large by v (1 - v) (s11 + s22)^2 (`C128_plane_partial`, `C128_plane_refuted`).
* The von Mises measure does not subtract the material's reference strain, the residual does (`C128_reference_refuted`).
* A material with none of the four elastic laws gives the von Mises measure a null pointer, which it dereferences (`C128_von_mises_law_refuted`).
* The elastic work criterion of a three-dimensional body depends on the path: a closed cycle of elastic states gives a nonzero value (`C130_stored_refuted`; the trace of `C34_refuted`).
* In thermoplasticity the criteria start from a state of zeros, temperatures included, so a body at its nonzero reference temperature, free of stress, has a negative elastic work (`C130_start_refuted`).
* 'Temperature Scaling' is read from 'Material Models' by the residual and the problem and from the material's own list by the work criteria and the local residual; given in one place only, a body free of stress for the one is strained for the other (`C130_scaling_refuted`).
* The principal stresses written by thermoplasticity leave the thermal strain in: a free heated body is reported under tension (`C131_heated_refuted`).
* Stabilised thermoelasticity in two dimensions divides the trace of the strain by three and takes the bulk modulus for two: a heated sheet held in place has 4/3 of the force (`C132_refuted`). In one dimension its shear modulus is 0/0 (`C133_bar`).
* 'Cubic Linear Thermoelastic' takes Youngs modulus and Poissons ratio and has the isotropic stiffness; only expansion and conductivity differ by direction (`C134_cubic`).
* The shape gradient of every plasticity criterion throws: gradient_x asks for as many columns as space dimensions while the workset has one per coordinate of the cell (`C135_shape_refuted`, `C135_shape_history_refuted`).
* A block named by two domains counts twice in the value of a plasticity criterion and once in its gradients (`C135_overlap_refuted`).
* A weighted sum that lists itself, directly or through others, makes the constructor recurse without end (`C136_endless_refuted`).
* A 'Stabilized Thermomechanical' run is solved but nothing of its solution is written: the output dispatch expects other keywords, which the factory refuses (`C137_stabilized_refuted`).
* Thermoplasticity saves plot data at every step and writes none of it (`C138_thermoplastic_refuted`).
* A transient problem without plot variables saves the data map once; what it holds is repeated in the files of all later steps (`C138_stale_refuted`).
* A 'Spatial Dimension' other than 1, 2 or 3 makes the program end with success without any analysis (`C139_dimension_refuted`); 'StructuralDynamics' dereferences a null pointer (`C139_structural_refuted`); the check of the mesh file's extension accepts '.exo' anywhere in the name (`C139_extension_refuted`).
* A burn evolves the geometry once more than its history has room for: the announced number of columns equals the number of steps, and column 0 is the start (`C140_last_step_refuted`); the cylinder's step counter is not reset by initialize, so from the second objective evaluation on everything is written further outside (`C140_again_refuted`); written times are one step late (`C140_times_refuted`).
* The rocket application's gradient is the design variable times the derivative, and 0 at 0 (`C141_gradient_refuted`); the operations it defines are not the ones it performs (`C141_operations_refuted`); importing a target leaves the norm of the old one (`C141_target_refuted`).
* Text meshes with an incomplete last node or cell give uninitialised entries (`C142_mesh_refuted`); a field file that is too long is written outside the vector (`C142_field`).
* 'Temperature Average' is d! times the integral of the temperature, not an average (`C144_average_refuted`).
* Rayleigh damping in the frequency domain acts on the first corner of every cell only (`C145_first_corner`), so it depends on the numbering of the mesh, may add energy, and the adjoint systems are not transposed (`C145_numbering_refuted`, `C145_dissipation_refuted`, `C146_transpose_refuted`).
* Frequency domain objectives are evaluated at frequency 0 for every state (`C147_objective_refuted`), which for the response misfit reads outside the measured data unless 0 is a frequency (`C150_objective_undefined`); measurements are stored for the first frequency only (`C150_data_refuted`).
* Loads inside the frequency domain residual act against their direction (`C148_balance_refuted`); without AmgX every state is zero (`C148_without_amgx`).
* The gradient of a frequency domain objective over several frequencies mixes them (`C149_frequencies_refuted`) and counts control derivatives once per pair of frequency and state (`C149_control_counted`).
* The derivative checks of the local equations with respect to global states compare as many entries as there are global degrees of freedom: on one triangle the last entry is never checked (`C155_global_refuted`), on one tetrahedron vectors are read outside their bounds (`C155_global_undefined`).
* All operations that map gradients to parameters share one result vector, and so do all finite difference operations (`C152_shared_refuted`, `C153_shared_refuted`); exporting a vector with a smaller size cuts it (`C151_export_changes_refuted`).
* A coupled run that fails while its stages are performed ends with exit code zero (`C156_analyze_refuted`); the rocket programs use finalised libraries after a failure (`C156_rocket_refuted`, `C156_main_refuted`).
* A Python construction with wrong arguments shuts the libraries down under living objects (`C157_failed_construction_refuted`), and no object can be constructed after the last was deleted (`C157_again_refuted`).
* Importing an element field or an unknown data type from Python reports success and stores nothing (`C158_dropped_refuted`); a parameter name without a colon is undefined behaviour (`C158_parameter_names`).
* One Newton step of a thermoelastic problem with prescribed temperatures returns no thermal expansion from them: the constraints are eliminated with rows of a matrix that is not symmetric (`C167_temperatures_lost`, `C167_refuted`); a second step repairs it (`C167_repeated`).
* The first step of a transient heat problem stores only the share alpha (half by default) of the heat supplied in it, because the initial rates are taken as zero (`C169_refuted`, `C169_supplied_partial`).
* A free body of one triangle has undetermined time steps in structural dynamics: all mass sits at the centre, so turning about it costs nothing (`C170_refuted`); bodies with two cells of different centres are fine (`C170_free`).
* A custom material that asks for one equation more than a Bingo file without a final newline has gets the last one instead of an error (`C181_refuted`); a second header in the file replaces the equation asked for (`C181_second_refuted`).
* Results of stabilised elastostatics in two dimensions depend on the unit of length: the stabilisation is weighted with the cell's measure to the power 2/3, an area in two dimensions, where the square of a length is the measure itself (`C184_sheet_refuted`); in three dimensions the power is right (`C184_solid`). ComputeStabilization for stabilised plasticity has the same expression.

## 6. Trusted base

### 6.1 Kernel and axioms

Trusted: the Coq 8.16.1 kernel, and the axioms of the standard library listed below for each theorem as `Print Assumptions`
reports them (`vm_compute` is used for closed computations).  No other axiom occurs; no library other than the standard library contributes one.

* `-` closed under the global context
* `F` ClassicalDedekindReals.sig_forall_dec (Reals)
* `N` ClassicalDedekindReals.sig_not_dec (Reals)
* `E` FunctionalExtensionality.functional_extensionality_dep (Logic, used by Reals)
* `C` Classical_Prop.classic (Logic)

| property | theorem: axioms |
|----------|-----------------|
| C01 | C01_block_enforces: -; C01_enforces: -; C01_block_enforces_general: - |
| C02 | C02_schedule_independent: -; C02_schedule_independent_nonblock: -; C02_every_schedule_terminates: -; C02_matrix_and_rhs: - |
| C03 | C03_unsymmetric_refuted: -; C03_overlap_refuted: -; C03_zero_values_partial: - |
| C04 | C04_dofs_and_values: - |
| C07 | C07_nonblock_same_matrix: -; C07_stride_rows: -; C07_round_trip: -; C07_in_bounds_refuted: - |
| C08 | C08_sort: - |
| C09 | C09_matvec: -; C09_rejects_sizes: - |
| C05 | C05_graph: -; C05_lookup: -; C05_nonblock: - |
| C06 | C06_vector: -; C06_scalar_gradient: -; C06_jacobian: -; C06_transpose_jacobian: -; C06_transpose_lookup: -; C06_exact_transpose: -; C06_gather: -; C06_virtual_work: - |
| C10 | C10_matrix_times_vector: -; C10_matrix_times_vector_transpose: -; C10_multiply: -; C10_update3: -; C10_identity_and_fill3: -; C10_update2: -; C10_fill2_scale2: -; C10_axpy2: -; C10_vectors: -; C10_extract: -; C10_rejects_mismatch: - |
| C11 | C11_fill_refuted: -; C11_fill_partial: - |
| C12 | C12_linear_solve: - |
| C13 | C13_early_exit: -; C13_refuted: -; C13_values_partial: - |
| C14 | C14_adjoint_gradient: -; C14_no_dirichlet_throws: - |
| C15 | C15_nonzero_values_refuted: -; C15_unsymmetric_refuted: -; C15_shape_gradient_partial: - |
| C16 | C16_self_adjoint_partial: -; C16_self_adjoint_shape_partial: -; C16_displacement_driven_refuted: - |
| C17 | C17_trapezoid: -; C17_linear_steps: -; C17_early_exit: - |
| C18 | C18_refuted: -; C18_accumulates: -; C18_zero_values_partial: - |
| C19 | C19_adjoint_partial: -; C19_adjoint_shape_partial: -; C19_nonzero_values_refuted: -; C19_unsymmetric_refuted: - |
| C20 | C20_newmark: -; C20_equation_of_motion: - |
| C21 | C21_energy_partial: -; C21_initial_acceleration_refuted: - |
| C22 | C22_adjoint_partial: -; C22_adjoint_shape_partial: -; C22_time_shift_refuted: -; C22_nonzero_values_refuted: -; C22_unsymmetric_refuted: - |
| C23 | C23_history_independent: -; C23_given_state: - |
| C24 | C24_values: EF; C24_gradients: CEFN; C24_constructed: EF |
| C25 | C25_step_ignored: EF; C25_refuted: CEFN; C24_gradients: CEFN |
| C26 | C26_rotated_inertia: EF; C26_gold_is_zero: EF |
| C27 | C27_steps_once: EF; C27_static_steps_once: EF |
| C64 | C64_parameter_gradient: EFN; C64_step_gradient_partial: EFN; C64_pnorm_steps_refuted: CEFN |
| C28 | C28_simp: CEFN; C28_ramp: EF; C28_heaviside: CEFN; C28_applied_once: F |
| C29 | C29_bound: EF; C29_continuation_partial: EF; C29_monotone_refuted: EF |
| C30 | C30_projection: CEFN |
| C65 | C65_reversed_refuted: CEFN; C65_range_partial: CEFN |
| C66 | C66_all_given_partial: -; C66_missing_key_refuted: -; C66_heaviside_refuted: - |
| C67 | C67_intermediate_density: EFN |
| C31 | C31_gradients: EF |
| C32 | C32_strain: EF; C32_virtual_work: EF; C32_operators_agree: EF; C32_equilibrium: EF; C32_dirty_output_refuted: EF |
| C33 | C33_stiffness: EF; C33_functor_partial: EF; C33_functor_refuted: EF; C33_reference_and_pressure: EF; C33_rayleigh: EF |
| C34 | C34_plane_strain_partial: EF; C34_refuted: EF; C34_solid_partial: EF; C34_bar_refuted: EF; C34_deviatoric: EF |
| C35 | C35_partial: EFN; C35_refuted: EFN; C35_negative_shear_wrong: EFN |
| C36 | C36_jacobi: EFN; C36_step: EFN |
| C37 | C37_deviator: EFN; C37_pressure_and_scale: EFN; C37_plane_stress: EFN; C37_rotation: EFN; C37_bar_refuted: EFN |
| C68 | C68_volume_partial: EF; C68_volume_refuted: EF; C68_face_area: EFN |
| C69 | C69_heat_flux: EF; C69_divergence: EF; C69_conservation: EF; C69_projection: EF |
| C70 | C70_symmetric: F; C70_required: F; C70_cubic: F; C70_entries: EF |
| C38 | C38_residual_vanishes: EFN; C38_return_mapping: EFN; C38_equivalent_strain: EFN; C38_thermal_independent: EFN; C38_penalised_constants: CEFN; C38_thermal_strain: EF |
| C39 | C39_history: EFN; C39_penalised_constants_admissible: CEFN |
| C40 | C40_terminates: EF; C40_failure: EF; C40_convergence_partial: EF; C40_stagnation_refuted: EF |
| C41 | C41_condensation: - |
| C42 | C42_termination_partial: -; C42_no_growth_refuted: -; C42_cut_refuted: -; C42_shrinking_refuted: - |
| C43 | C43_increments_telescope: -; C43_state_partial: EFN; C43_early_stop_refuted: EFN |
| C44 | C44_first_solve_partial: -; C44_accumulates: -; C44_repeated_solve_refuted: - |
| C45 | C45_path_adjoint_partial: -; C45_penalised_projection_refuted: -; C45_no_dirichlet_throws: - |
| C71 | C71_failed_solve_throws: -; C71_all_succeeded: -; C71_recovery_refuted: - |
| C46 | C46_meaning_partial: -; C46_fully_parenthesised: -; C46_minus_power_refuted: -; C46_factorial_partial: - |
| C47 | C47_accepted_complete: -; C47_unknown_names: - |
| C48 | C48_pow_arguments_refuted: -; C48_pow_partial: - |
| C49 | C49_safe_refuted: -; C49_safe_partial: - |
| C50 | C50_adjoint: -; C50_built: EFN |
| C51 | C51_average: EFN; C51_radius: EFN |
| C52 | C52_basis: -; C52_affine_fields: -; C52_best_refuted: -; C52_search_partial: -; C52_score: EF |
| C53 | C53_fold: EFN; C53_normal: EFN |
| C72 | C72_found: EF |
| C73 | C73_outside_refuted: -; C73_built_partial: - |
| C54 | C54_step: CEFN |
| C55 | C55_element: EFN; C55_motion: EFN; C55_constant: EFN |
| C74 | C74_volume: CEFN |
| C75 | C75_fixed_point: EFN |
| C76 | C76_normalised_partial: EF; C76_sign_refuted: EF |
| C62 | C62_jacobian: CEFN; C62_bounded: CEFN; C62_converged: CEFN; C62_profiles: CEFN; C62_cylinder: CEFN; C62_zero_step_never_ends: CEFN; C62_balance: CEFN; C62_mass_production: CEFN; C62_thrust: EFN |
| C63 | C63_small_difference_refuted: CEFN; C63_partial: CEFN |
| C77 | C77_pressure: CEFN |
| C56 | C56_exterior: EFN; C56_serial: EFN |
| C57 | C57_race_refuted: EFN; C57_unshared_partial: EFN |
| C78 | C78_body: EF; C78_total: EF |
| C79 | C79_pressure_partial: EFN; C79_extra_component_refuted: EFN |
| C80 | C80_exact: CEFN; C80_rounded: CEFN; C80_refused: EF |
| C81 | C81_accepted: F; C81_safe_partial: F; C81_wild_write_refuted: F |
| C82 | C82_basis: CEFN |
| C58 | C58_problem_partial: EF; C58_reported_partial: EF; C58_gradient_partial: EF; C58_reload_refuted: EF; C58_stale_gradient_refuted: EF; C58_after_exception_refuted: EF; C58_control: EF; C58_solution: EF |
| C59 | C59_conditional_partial: EF; C59_unconditional: EF; C59_empty_refuted: EF |
| C60 | C60_control: -; C60_shape_export_partial: F; C60_shape_hdf5_refuted: F |
| C61 | C61_current: -; C61_saved_partial: -; C61_index: -; C61_saved_refuted: F |
| C83 | C83_scalar: -; C83_array: -; C83_unchecked_refuted: F; C83_numbers: - |
| C84 | C84_repeat_refuted: EF; C84_no_map_partial: - |
| C85 | C85_agree_refuted: F; C85_one_step_partial: F |
| C86 | C86_unique: -; C86_conflict: - |
| C87 | C87_kept_partial: EF; C87_shared_refuted: EF |
| C89 | C89_default_unsolved: -; C89_iterates_partial: -; C89_limit: -; C89_refuted: -; C89_values_partial: -; C89_throws_without_conditions: - |
| C90 | C90_gradient_partial: -; C90_unpenalised_partial: -; C90_refuted: - |
| C91 | C91_gradient_partial: -; C91_refuted: - |
| C88 | C88_condense: -; C88_divide: -; C88_product: -; C88_difference: -; C88_product_refuses: -; C88_heights_unchecked: - |
| C92 | C92_elliptic_criterion: -; C92_geometric_criterion: -; C92_global_residual: -; C92_local_residual: -; C92_local_criterion: -; C92_criteria: -; C92_exponent: EF; C92_j2_exponents: EF; C92_projection_partial: -; C92_projection_refuted: - |
| C93 | C93_value: CEFN; C93_feasible: CEFN; C93_updates: CEFN; C93_monotone: CEFN; C93_gradient: CEFN; C93_mass_multipliers_partial: CEFN; C93_mass_lower_refuted: CEFN; C93_mass_normalised_partial: EF; C93_mass_normalised_refuted: EF |
| C94 | C94_stable_accepted: EFN; C94_unstable_rejected: EFN; C94_accepted_partial: EFN; C94_missing_rejected: EFN; C94_isotropic: EFN; C94_density: F; C94_refuted: EFN; C94_edge_not_a_number: EFN; C94_isotropic_sheet_differs: EFN |
| C95 | C95_free_expansion_partial: EF; C95_refuted: EF; C95_bar: EF |
| C96 | C96_elastic: EF; C96_thermal: EF; C96_thermoelastic: EF; C96_electroelastic: EF; C96_rest: EF; C96_transient_thermoelastic: EF |
| C97 | C97_elastic: EF; C97_thermal_partial: EF; C97_thermoelastic: EF; C97_electroelastic: EF; C97_thermal_zero: EF; C97_thermal_refuted: EF |
| C98 | C98_energy_partial: EF; C98_refuted: EF |
| C99 | C99_elastic: EF; C99_thermal: EF; C99_electroelastic: EF; C99_positive: EF |
| C100 | C100_heat_partial: EF; C100_no_conduction: EF; C100_refuted: EF; C100_thermoelastic: EF |
| C101 | C101_unit_partial: EF; C101_refuted: EF |
| C102 | C102_isotropic_partial: EF; C102_mismatch: EF; C102_refuted: EF; C102_direct: EF; C102_nested: EF; C102_tensors: EF |
| C103 | C103_ignored: EF; C103_refuted: EF |
| C104 | C104_opposite: EF; C104_conduction_partial: EF; C104_refuted: EF |
| C105 | C105_unit: EF; C105_entered_partial: EF; C105_ignored: EF; C105_refuted: EF; C105_tensors: EF |
| C106 | C106_effective: EF; C106_symmetric: EF; C106_minimum: EF; C106_input_partial: EF; C106_input_refuted: EF |
| C107 | C107_displacement_partial: CEFN; C107_refuted: CEFN; C107_bar: CEFN |
| C108 | C108_reciprocal: CEFN |
| C109 | C109_projection: EF; C109_rows: CEFN; C109_consistent_partial: CEFN; C109_scalings: EF; C109_refuted: CEFN |
| C110 | C110_energy_partial: CEFN; C110_refuted: CEFN |
| C111 | C111_problem_selection_partial: -; C111_no_other_problem: -; C111_structural_dynamics_refuted: -; C111_electromechanical_refuted: -; C111_mechanical_refuted: - |
| C112 | C112_model_read: -; C112_blocks_partial: EF; C112_order: EF; C112_same_material: EF; C112_criterion: EF; C112_no_domains_refuted: F; C112_overlap_refuted: EF |
| C113 | C113_local_rows: -; C113_update: -; C113_one_block_partial: -; C113_gradient_x_refuted: -; C113_gradient_z_refuted: -; C113_value_refuted: F; C113_empty_block: - |
| C114 | C114_shape_gradient: EF; C114_plasticity_partial: EF; C114_plasticity_refuted: EF |
| C115 | C115_value: CEFN; C115_homogeneous: CEFN; C115_convex: CEFN; C115_bounds: CEFN; C115_limit: CEFN; C115_zero: CEFN; C115_hyperbolic: CEFN; C115_electromechanical: CEFN; C115_flux_partial: CEFN; C115_flux_truncated: CEFN; C115_exponent_refuted: CEFN; C115_reference_refuted: CEFN; C115_rotation_refuted: CEFN; C115_flux_refuted: CEFN; C115_gradient: CEFN; C115_gradient_refuted: CEFN |
| C116 | C116_weighted: CEFN; C116_created: EF; C116_unknown_refuted: EF; C116_barlat_exponent_refuted: EF |
| C117 | C117_principal: CEFN; C117_defined: CEFN; C117_pressure: CEFN; C117_isotropic: CEFN; C117_uniaxial: CEFN; C117_unloaded_refuted: CEFN; C117_gradient_refuted: CEFN; C117_formula: CEFN |
| C118 | C118_value: EF; C118_centre: EF; C118_moved: EF; C118_rigid: EF; C118_inertia: EF; C118_bar: CEFN; C118_inertia_refuted: EF; C118_refinement_refuted: EF |
| C119 | C119_geometric_input: F; C119_rejects: EF; C119_gold: EF; C119_itemized_value: EF; C119_all_value: EF; C119_order: EF; C119_no_mass: EF; C119_elliptic_density_partial: F; C119_elliptic_density_refuted: EF; C119_elliptic_criteria_refuted: EF |
| C120 | C120_strain: EF; C120_virtual_work: EF; C120_momentum: EF; C120_undamped: EF; C120_coasting: EF |
| C121 | C121_dissipation: EF; C121_power: EF; C121_step: EF; C121_stable: EF; C121_motion: EF; C121_run: EF; C121_criterion_partial: EF; C121_criterion_refuted: EF; C121_mass_partial: EF; C121_mass_refuted: EF |
| C122 | C122_entries_partial: F; C122_entries_refuted: EF; C122_wrong_type_partial: F; C122_wrong_type_refuted: F; C122_plot_partial: EF; C122_plot_refuted: EF |
| C123 | C123_value: EFN; C123_gradient: EFN; C123_subgradient: EFN; C123_elsewhere: EFN; C123_input: F; C123_rejects: F; C123_short_partial: F; C123_empty_refuted: EFN; C123_steps_refuted: EFN; C123_other_gradients: EFN |
| C124 | C124_transient: F; C124_diffusive: F; C124_accepts: F; C124_no_fields: F; C124_mechanics_refuted: F; C124_thermomechanics_refuted: F; C124_unknown_refuted: F |
| C125 | C125_tpetra: -; C125_epetra: -; C125_amgx: -; C125_solution: -; C125_rejects: -; C125_rows_refuted: -; C125_assertion_refuted: - |
| C126 | C126_settings_partial: EF; C126_tolerance_refuted: EF; C126_failure_partial: -; C126_failure_refuted: -; C126_stack: -; C126_packages: - |
| C127 | C127_equation: EF; C127_equation_default: EF; C127_plasticity: EF; C127_equation_unknown_partial: EF; C127_equation_unknown_refuted: EF; C127_criterion_partial: EF; C127_criterion_plain: EF; C127_measure: EF; C127_criterion_unknown_partial: EF; C127_criterion_unknown_refuted: EF; C127_stabilised_refuted: EF; C127_kind: -; C127_list: -; C127_list_rejects: -; C127_kind_refuted: -; C127_kind_absent: - |
| C128 | C128_bounds: EFN; C128_principal_partial: EFN; C128_principal_refuted: EFN; C128_reverse_partial: EFN; C128_reverse_refuted: EFN; C128_rigid: EFN; C128_von_mises_scale: EFN; C128_solid: EFN; C128_plane_partial: EFN; C128_plane_refuted: EFN; C128_reference_refuted: EFN; C128_thermal: EFN; C128_free_expansion_partial: EFN; C128_thermal_bar: -; C128_input: EF; C128_rejects: EF; C128_von_mises_law: -; C128_von_mises_law_refuted: F |
| C129 | C129_balanced: CEFN; C129_stress: CEFN; C129_pressure: CEFN; C129_stress_free: CEFN; C129_reciprocal: CEFN; C129_heat: CEFN; C129_defined: CEFN |
| C130 | C130_stored_partial: EF; C130_stored_refuted: EF; C130_energy_positive: EF; C130_total_partial: CEFN; C130_dissipation: EFN; C130_dissipation_step: EFN; C130_start_partial: EF; C130_start_refuted: CEFN; C130_scaling_partial: F; C130_scaling_refuted: CEFN |
| C131 | C131_principal_partial: EFN; C131_heated_refuted: CEFN |
| C132 | C132_temperature: CEFN; C132_solid_partial: CEFN; C132_refuted: CEFN |
| C133 | C133_balanced: CEFN; C133_heat: CEFN; C133_conserved: CEFN; C133_dissipates: CEFN; C133_expansion: CEFN; C133_reciprocal: CEFN; C133_bar: CEFN |
| C134 | C134_isotropic: EF; C134_cubic: EF; C134_required: EF |
| C135 | C135_value: EF; C135_gradient_partial: EF; C135_design_gradient: EF; C135_recorded: EF; C135_shape_refuted: F; C135_shape_history_refuted: F; C135_overlap_refuted: EF; C135_history: EF; C135_empty: - |
| C136 | C136_described: F; C136_built: F; C136_ends: F; C136_refused: F; C136_endless_refuted: F |
| C137 | C137_fields: -; C137_state_partial: -; C137_rates: -; C137_electromechanical: -; C137_stabilized_refuted: - |
| C138 | C138_data_partial: -; C138_thermoplastic_refuted: -; C138_stale_refuted: - |
| C139 | C139_success_partial: -; C139_refused: -; C139_query: -; C139_dimension_refuted: -; C139_structural_refuted: -; C139_extension_refuted: - |
| C140 | C140_history_partial: F; C140_profile: CEFN; C140_burn_ends: CEFN; C140_last_step_refuted: CEFN; C140_again_refuted: F; C140_times_refuted: F |
| C141 | C141_start: EF; C141_value: EF; C141_misfit: EF; C141_gradient_partial: CEFN; C141_gradient_refuted: EF; C141_operations_refuted: EF; C141_other_operations: EF; C141_data: -; C141_target_refuted: EF; C141_solution: EF |
| C142 | C142_field: -; C142_transform: -; C142_mesh_partial: -; C142_mesh_refuted: - |
| C143 | C143_volume: EF; C143_material: EF |
| C144 | C144_integral_partial: EF; C144_average_refuted: EF |
| C145 | C145_undamped_partial: EF; C145_work_partial: EF; C145_first_corner: EF; C145_lossless_partial: EF; C145_damping_refuted: EF; C145_numbering_refuted: EF; C145_dissipation_refuted: EF |
| C146 | C146_reversed: EF; C146_transpose_partial: EF; C146_transpose_refuted: EF |
| C147 | C147_energies: EF; C147_work: EF; C147_objective_partial: EF; C147_objective_refuted: EF |
| C148 | C148_state: -; C148_balance_partial: -; C148_balance_refuted: -; C148_damped_support_refuted: -; C148_without_amgx: - |
| C149 | C149_one_frequency_partial: -; C149_frequencies_refuted: -; C149_control_counted: -; C149_supports_refuted: -; C149_no_objective: - |
| C150 | C150_value: EF; C150_unlisted: -; C150_data_partial: EF; C150_data_refuted: EF; C150_rejected: -; C150_objective_refuted: EF; C150_objective_undefined: -; C150_objective_partial: EF |
| C151 | C151_round_trip: F; C151_undeclared: F; C151_shadow_refuted: EF; C151_export_changes_refuted: EF |
| C152 | C152_sensitivity: EF; C152_created: F; C152_too_long: F; C152_shared_refuted: F |
| C153 | C153_rounds: EF; C153_gradient: CEFN; C153_no_index_refuted: EF; C153_undefined: EF; C153_shared_refuted: EF; C153_perturbed_field: EF; C153_perturbed_undefined: EF |
| C154 | C154_rows: CEFN; C154_total: CEFN; C154_direction_refuted: EF |
| C155 | C155_local: CEFN; C155_previous_local: CEFN; C155_control: CEFN; C155_global_partial: CEFN; C155_global_undefined: EF; C155_global_refuted: CEFN |
| C156 | C156_success: -; C156_analyze_partial: -; C156_analyze_refuted: -; C156_rocket_refuted: -; C156_main_refuted: - |
| C157 | C157_orderly: -; C157_failed_construction_refuted: -; C157_again_refuted: -; C157_external_refuted: - |
| C158 | C158_fields_partial: F; C158_values: F; C158_parameters: F; C158_parameter_names: F; C158_dropped_refuted: F; C158_integers_refuted: F; C158_fatal: F; C158_round_trip: F |
| C159 | C159_elastic: EFN; C159_isotropic: EFN; C159_heat: EFN; C159_thermoelastic: EFN; C159_needs_isotropy: EF; C159_electroelastic: EFN |
| C160 | C160_elastic: EF; C160_heat: EF; C160_thermoelastic: EF; C160_electroelastic: EF |
| C161 | C161_elastic: EF; C161_heat: EF |
| C162 | C162_heat: EF; C162_elastic: EF; C162_thermoelastic: EF; C162_electroelastic: EF; C162_isotropic: EF; C162_needs_supports: EF; C162_needs_facets: EF |
| C163 | C163_minimum: EF; C163_minimum_heat: EF; C163_loaded: EF; C163_loaded_heat: EF; C163_driven: EF |
| C164 | C164_elastic: EF; C164_heat: EF; C164_electroelastic: EF; C164_thermoelastic: EF; C164_exact: EF; C164_needs_interior: EF |
| C165 | C165_elastic: EF; C165_heat: EF; C165_electroelastic: EF |
| C166 | C166_gradient: EF; C166_elastic: EF; C166_heat: EF; C166_electroelastic: EF |
| C167 | C167_refuted: EF; C167_temperatures_lost: EF; C167_zero_partial: EF; C167_repeated: EF |
| C168 | C168_steps: EF; C168_decay: EF |
| C169 | C169_refuted: EF; C169_supplied_partial: EF; C169_conserved: EF |
| C170 | C170_refuted: EF; C170_steps: EF; C170_supported: EF; C170_free: EF |
| C171 | C171_energy: EF; C171_never_gains: EF; C171_energy_partial: EF; C171_impulse: EF; C171_coasting: EF |
| C172 | C172_elastic_numbering: EF; C172_heat_numbering: EF; C172_electroelastic_numbering: EF; C172_elastic_frame: EFN; C172_heat_frame: EFN; C172_units: EF; C172_heat_units: EF; C172_electroelastic_units: EF; C172_electroelastic_frame: EFN |
| C173 | C173_superposition: EF; C173_reciprocity: EF |
| C174 | C174_parts: EF; C174_static: EF |
| C175 | C175_frame: EFN; C175_numbering: EF |
| C176 | C176_numbering: EF; C176_frame: EFN |
| C177 | C177_superposition: EF |
| C178 | C178_rest: EF; C178_static_solution: EF |
| C179 | C179_numbering: EF; C179_frame: EFN; C179_superposition: EF |
| C180 | C180_steady: EF; C180_static_solution: EF; C180_approach: EF |
| C181 | C181_direct: -; C181_found_partial: -; C181_missing_partial: -; C181_no_file: -; C181_refuted: -; C181_second_refuted: - |
| C182 | C182_report: -; C182_complete: -; C182_sound: -; C182_fails: - |
| C183 | C183_fails: -; C183_merged: - |
| C184 | C184_forces: CEFN; C184_solid: CEFN; C184_sheet_partial: CEFN; C184_sheet_refuted: CEFN |
| C185 | C185: EF |
| C186 | C186: EF |

### 6.2 What is modelled

Also trusted is the reading of the C++ recorded in the comments of the model files.  Per model file, the sources it cites
(each definition's comment gives the lines and the simplifications):

| model | sources in /repo/src |
|-------|----------------------|
| App/AppModel.v | Analyze_App.cpp, Analyze_App.hpp, PlatoStaticsTypes.hpp, ToMap.hpp |
| App/LaunchModel.v | Analyze_MPMD.cpp, PlatoRocketAppMPMD.cpp, AlgebraicRocketMain.cpp, PlatoPythonModule.cpp, Analyze_App.hpp |
| App/ValuesModel.v | Analyze_App.cpp, Analyze_App.hpp |
| Assembly/AssemblyModel.v | Assembly.hpp, ImplicitFunctors.hpp |
| Assembly/GraphModel.v | ImplicitFunctors.hpp |
| AugLag/AugLagModel.v | Plato_AugLagStressCriterion.hpp, Plato_AugLagStressCriterionGeneral.hpp, Plato_AugLagStressCriterionQuadratic.hpp, Simp.hpp |
| BC/ConstraintsModel.v | ApplyConstraints.hpp, alg/CrsMatrix.hpp |
| BC/EssentialModel.v | EssentialBCs.hpp |
| Blas/BlasModel.v | BLAS1.hpp, BLAS2.hpp, BLAS3.hpp |
| Blocks/BlocksModel.v | PlatoProblemFactory.hpp, SpatialModel.hpp, WorksetBase.hpp, elliptic/VectorFunction.hpp, parabolic/VectorFunction.hpp, hyperbolic/HyperbolicVectorFunction.hpp, VectorFunctionVMS.hpp, GlobalVectorFunctionInc.hpp, elliptic/PhysicsScalarFunction.hpp, PathDependentAdjointSolver.hpp, LocalVectorFunctionInc.hpp, Assembly.hpp |
| Criteria/CriteriaModel.v | elliptic/AbstractScalarFunction.hpp, parabolic/AbstractScalarFunction.hpp, hyperbolic/HyperbolicAbstractScalarFunction.hpp, TensorPNorm.hpp, elliptic/FluxPNorm.hpp, Assembly.hpp, elliptic/PhysicsScalarFunction.hpp, parabolic/PhysicsScalarFunction.hpp, hyperbolic/HyperbolicPhysicsScalarFunction.hpp, elliptic/ScalarFunctionBase.hpp, elliptic/WeightedSumFunction.hpp, elliptic/DivisionFunction.hpp, elliptic/LeastSquaresFunction.hpp, elliptic/MassPropertiesFunction.hpp |
| Criteria/PathModel.v | LocalScalarFunctionInc.hpp, BasicLocalScalarFunction.hpp, ImplicitFunctors.hpp, WorksetBase.hpp, Assembly.hpp, WeightedLocalScalarFunction.hpp, BLAS2.hpp, PlasticityProblem.hpp, PathDependentScalarFunctionFactory_def.hpp |
| Criteria/VolumeModel.v | elliptic/Volume.hpp, geometric/Volume.hpp, parabolic/TemperatureAverage.hpp, ApplyWeighting.hpp, StateValues.hpp |
| Diagnostics/DiagModel.v | Plato_Diagnostics.hpp, BLAS1.hpp |
| Dynamics/DynModel.v | hyperbolic/ElastomechanicsResidual.hpp, LinearElasticMaterial.hpp, hyperbolic/InertialContent.hpp, ProjectToNode.hpp, InterpolateFromNodal.hpp, hyperbolic/HyperbolicInternalElasticEnergy.hpp, ScalarProduct.hpp, IsotropicLinearElasticMaterial.cpp, OrthotropicLinearElasticMaterial.cpp, CustomLinearElasticMaterial.cpp, CubicLinearElasticMaterial.cpp, LinearElasticMaterial.cpp |
| Element/ElementModel.v | ImplicitFunctors.hpp, LinearTetCubRuleDegreeOne.hpp, Strain.hpp, StressDivergence.hpp, ScalarGrad.hpp, ThermalFlux.hpp, FluxDivergence.hpp, LinearStress.hpp |
| Element/MaterialModel.v | IsotropicLinearElasticMaterial.cpp, IsotropicStiffness.cpp, MaterialModel.hpp, CubicLinearElasticMaterial.cpp, ParseTools.hpp, Rank4Voigt.cpp, ComputeCauchyStress.hpp, ComputeDeviatoricStress.hpp, Eigenvalues.hpp, VonMisesYieldFunction.hpp |
| Expr/BingoModel.v | CustomMaterial.cpp |
| Expr/ExprModel.v | ExpressionEvaluator.cpp, ExpressionEvaluator.hpp, CustomMaterial.cpp |
| Factory/FactoryModel.v | Mechanics.hpp, Thermal.hpp, Thermomechanics.hpp, Electromechanics.hpp, StabilizedMechanics.hpp, StabilizedThermomechanics.hpp, Geometrical.hpp, InfinitesimalStrainPlasticity.hpp, InfinitesimalStrainThermoPlasticity.hpp, hyperbolic/HyperbolicMechanics.hpp, Simp.hpp, Ramp.hpp, Heaviside.hpp, NoPenalty.hpp, Plasticity.hpp, PathDependentScalarFunctionFactory_def.hpp, elliptic/Problem.hpp, parabolic/Problem.hpp, hyperbolic/HyperbolicProblem.hpp |
| Frequency/FreqProblemModel.v | StructuralDynamicsProblem.hpp, elliptic/PhysicsScalarFunction.hpp, FrequencyResponseMisfit.hpp, ComputeFrequencyResponseMisfit.hpp, WorksetBase.hpp |
| Frequency/FrequencyModel.v | StructuralDynamicsResidual.hpp, AdjointStructuralDynamicsResidual.hpp, ComplexStrain.hpp, ComplexLinearStress.hpp, ComplexStressDivergence.hpp, StateValues.hpp, InertialForces.hpp, ComplexRayleighDamping.hpp, AdjointComplexRayleighDamping.hpp, ApplyProjection.hpp, ApplyPenalty.hpp, StructuralDynamicsCellResidual.hpp, ComplexElasticEnergy.hpp, ComplexInertialEnergy.hpp, DynamicCompliance.hpp, elliptic/PhysicsScalarFunction.hpp, StructuralDynamicsProblem.hpp |
| LevelSet/LevelSetModel.v | HamiltonJacobi.hpp, ImplicitFunctors.hpp |
| Loads/LoadsModel.v | SurfaceLoadIntegral.hpp, SurfacePressureIntegral.hpp, NaturalBCUtilities.hpp, NaturalBC.hpp, NaturalBCs.hpp, BodyLoads.hpp, OmegaHUtilities.hpp, alg/Basis.cpp, alg/Cubature.cpp, Plato_TopOptFunctors.hpp |
| Mass/MassModel.v | elliptic/MassMoment.hpp, geometric/MassMoment.hpp, elliptic/MassPropertiesFunction.hpp, geometric/MassPropertiesFunction.hpp |
| Measures/MeasuresModel.v | Eigenvalues.hpp, TensileEnergyDensity.hpp, TensileEnergyDensityLocalMeasure.hpp, VonMisesLocalMeasure.hpp, LinearStress.hpp, ElasticModelFactory.hpp, ThermalVonMisesLocalMeasure.hpp |
| MeshMap/MapModel.v | Plato_MeshMap.hpp |
| Nodal/InitialModel.v | ComputedField.hpp, hyperbolic/HyperbolicProblem.hpp, parabolic/Problem.hpp, hyperbolic/ElastomechanicsResidual.hpp, parabolic/TransientThermomechResidual.hpp, parabolic/HeatEquationResidual.hpp |
| Nodal/SolutionModel.v | elliptic/SolutionFunction.hpp |
| Norms/NormsModel.v | TensorPNorm.hpp, VectorPNorm.hpp, elliptic/StressPNorm.hpp, elliptic/EMStressPNorm.hpp, elliptic/FluxPNorm.hpp, hyperbolic/HyperbolicStressPNorm.hpp, elliptic/PhysicsScalarFunction.hpp, LinearStress.hpp |
| Ortho/OrthoModel.v | OrthotropicLinearElasticMaterial.cpp, LinearElasticMaterial.cpp |
| Output/OutputModel.v | AnalyzeOutput.hpp, PlatoUtilities.hpp, PlatoStaticsTypes.hpp, OmegaHUtilities.hpp, alg/Run.cpp, PlatoDriver.hpp, alg/Analyze.cpp |
| Params/ParamsModel.v | alg/ParseInput.cpp |
| Penalty/PenaltyModel.v | Heaviside.hpp, Simp.hpp, Ramp.hpp, NoPenalty.hpp, ApplyPenalty.hpp, Plato_TopOptFunctors.hpp, ApplyProjection.hpp, LinearTetCubRuleDegreeOne.hpp, IntermediateDensityPenalty.hpp, HyperbolicTangentProjection.hpp, HeavisideProjection.hpp |
| Plasticity/CondensationModel.v | WorksetBase.hpp, Assembly.hpp, NewtonRaphsonSolver.hpp, PathDependentAdjointSolver.hpp, PlatoMathHelpers.hpp, PlasticityProblem.hpp |
| Plasticity/GlobalModel.v | InfinitesimalStrainPlasticityResidual.hpp, InfinitesimalStrainThermoPlasticityResidual.hpp, SimplexPlasticity.hpp, SimplexThermoPlasticity.hpp, StrainDivergence.hpp, Plato_TopOptFunctors.hpp, GlobalVectorFunctionInc.hpp, ElasticWorkCriterion.hpp, PlasticWorkCriterion.hpp, J2PlasticityUtilities.hpp, BasicLocalScalarFunction.hpp, PlasticityProblem.hpp, J2PlasticityLocalResidual.hpp, ComputePrincipalStresses.hpp |
| Plasticity/J2Model.v | J2PlasticityUtilities.hpp, ThermoPlasticityUtilities.hpp, J2PlasticityLocalResidual.hpp |
| Plasticity/NewtonModel.v | NewtonRaphsonSolver.hpp, NewtonRaphsonUtilities.hpp, PlasticityProblem.hpp |
| Problem/EllipticModel.v | elliptic/Problem.hpp, elliptic/VectorFunction.hpp, elliptic/ScalarFunctionBase.hpp |
| Problem/HyperbolicModel.v | hyperbolic/HyperbolicProblem.hpp, hyperbolic/Newmark.hpp, HyperbolicVectorFunction.hpp |
| Problem/ParabolicModel.v | parabolic/Problem.hpp, parabolic/TrapezoidIntegrator.hpp, parabolic/VectorFunction.hpp, parabolic/ScalarFunctionBase.hpp |
| Residual/CouplingModel.v | MaterialModel.hpp, MaterialModel.cpp, IsotropicStiffness.cpp, ThermoelasticMaterial.hpp, elliptic/InternalThermoelasticEnergy.hpp, NaturalBCs.hpp, elliptic/ThermostaticResidual.hpp, elliptic/ThermoelastostaticResidual.hpp, LinearElectroelasticMaterial.cpp |
| Residual/HomogModel.v | HomogenizedStress.hpp, elliptic/EffectiveEnergy.hpp |
| Residual/ResidualModel.v | ApplyWeighting.hpp, WorksetBase.hpp, ImplicitFunctors.hpp, elliptic/VectorFunction.hpp, parabolic/VectorFunction.hpp, elliptic/PhysicsScalarFunction.hpp, LinearTetCubRuleDegreeOne.hpp, InterpolateFromNodal.hpp, ProjectToNode.hpp, ScalarProduct.hpp, CellForcing.hpp, elliptic/ElastostaticResidual.hpp, elliptic/InternalElasticEnergy.hpp, MaterialModel.hpp, ThermalFlux.hpp, elliptic/ThermostaticResidual.hpp, ThermalContent.hpp, parabolic/HeatEquationResidual.hpp, elliptic/InternalThermalEnergy.hpp, VoigtMap.hpp, TMKinetics.hpp, elliptic/ThermoelastostaticResidual.hpp, TMKinematics.hpp, elliptic/InternalThermoelasticEnergy.hpp, parabolic/TransientThermomechResidual.hpp, EMKinetics.hpp, EMKinematics.hpp, elliptic/ElectroelastostaticResidual.hpp, elliptic/InternalElectroelasticEnergy.hpp |
| Rocket/HistoryModel.v | Plato_LevelSetCylinderInBox.hpp, Plato_LevelSetOnExternalMesh.hpp, Plato_AlgebraicRocketModel.hpp, HamiltonJacobi.hpp |
| Rocket/RocketAppModel.v | PlatoRocketApp.cpp, Plato_RocketMocks.hpp |
| Rocket/RocketModel.v | Plato_AlgebraicRocketModel.hpp, Plato_Cylinder.hpp, PlatoMathHelpers.hpp, Plato_GeometryModel.hpp |
| Rocket/TextMeshModel.v | Plato_BuildMesh.hpp |
| Solvers/SolversModel.v | alg/EpetraLinearSolver.cpp, alg/TpetraLinearSolver.cpp, alg/AmgXLinearSolver.cpp, alg/PlatoSolverFactory.cpp |
| Sparse/CrsModel.v | alg/CrsMatrix.hpp, PlatoMathHelpers.hpp |
| Sparse/ProductModel.v | PlatoMathHelpers.hpp, PlatoMathFunctors.hpp |
| Stab/HeatModel.v | SimplexThermomechanics.hpp, LinearThermoelasticMaterial.hpp, LinearThermoelasticMaterial.cpp, TMKinetics.hpp, StabilizedThermoelastostaticResidual.hpp, TMKinematics.hpp |
| Stab/StabModel.v | IsotropicLinearElasticMaterial.cpp, PressureGradientProjectionResidual.hpp, Kinetics.hpp, ComputeStabilization.hpp, PressureDivergence.hpp, StabilizedElastostaticResidual.hpp, Kinematics.hpp, ProjectToNode.hpp, PressureGradient.hpp, StabilizedElastostaticEnergy.hpp |
| Update/UpdateModel.v | VectorFunctionVMS.hpp, elliptic/WeightedSumFunction.hpp, DivisionFunction.hpp, LeastSquaresFunction.hpp, MassPropertiesFunction.hpp, WeightedLocalScalarFunction.hpp, elliptic/Problem.hpp, elliptic/PhysicsScalarFunction.hpp, geometric/GeometryScalarFunction.hpp, GlobalVectorFunctionInc.hpp, LocalVectorFunctionInc.hpp, BasicLocalScalarFunction.hpp, InfinitesimalStrainPlasticityResidual.hpp, InfinitesimalStrainThermoPlasticityResidual.hpp, ElasticWorkCriterion.hpp, PlasticWorkCriterion.hpp, J2PlasticityLocalResidual.hpp |
| Vms/VmsModel.v | EllipticVMSProblem.hpp, VectorFunctionVMS.hpp, PressureGradientProjectionResidual.hpp, elliptic/ScalarFunctionBase.hpp, BLAS1.hpp, PlatoMathFunctors.hpp, Plato_Solve.hpp, PlatoMathHelpers.hpp |

### 6.3 What is not modelled

* Floating point: rounding, overflow, NaN (except where a division by zero is itself the finding).
* Kokkos, Trilinos, Omega_h, Sacado, AmgX, ArborX, HDF5 and Exodus internals: linear solvers, sparse kernels, automatic differentiation,
  bounding-volume search and file formats appear only as oracles with stated hypotheses.
* Every source file not named in 6.2, notably: HDF5IO, the file formats behind mesh input and output, the command line and the parameter file parser behind alg/ParseInput (C182 and C183 model its report and merging), the factories and output files of
structural dynamics in the frequency domain (whose argument lists and input keys do not match the constructors).
* Within the named files, every function not cited by a comment.
