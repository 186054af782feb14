# Formal model of RoKi (robot kinetics library) in Rocq/Coq

Source: `/repo` (C).  Model: `/verif/rocq/theories`, built by
`coq_makefile -f _CoqProject -o Makefile && make -j4`.

## 1. Modelling decisions

* **Numbers.**  C `double` is modelled by an arbitrary *ordered field* `F`
  (type classes `Num`/`NumLaws` in `Num.v`).  Every algebraic theorem is stated
  and proved for all such `F`; instances are given for the reals `R` and for the
  canonical rationals `Qc`.  On `Qc` the model is executable, which is what the
  `Example`s and the `_refuted` witnesses use.  Floating-point rounding,
  overflow, NaN and signed zero are **not** modelled.  Theorems about time
  derivatives are stated on the instance `R` (Coq standard library reals).
* **Infinite limits.**  `HUGE_VAL` joint/motor limits are `None : option F`.
* **External libraries** (ZEDA lists/arrays/strings, ZM scalars/vectors/matrices,
  ZEO 3D geometry) are not in the repository.  Their functions are modelled by
  their documented meaning in `Vec.v` (exact 3D/6D algebra) or, where the result
  is transcendental or geometric (`zPhaseNormalize`, `zSinCos`, `zMat3DFromAA`,
  `zAACascade`, `zMat3DError`, AABB/OBB/GJK tests), by function parameters whose
  required laws are explicit hypotheses of the theorems that need them.
* **Memory.**  Pointers into arrays are indices; a null pointer is `None`;
  dereferencing null (or running out of fuel in a recursive traversal) is a
  distinct outcome of the model, never a default value.  Memory allocation is
  assumed to succeed.
* **Files.**  `Foo_Model.v`: definitions only, each citing file and lines.
  `Foo_Spec.v` (or the head of a proof file): independent specification.
  `Foo_Proofs.v`: lemmas.  `Foo_Properties.v`: property theorems closed by
  `exact`, each with `Print Assumptions`, and non-vacuity `Example`s.

## 2. Trusted base

* The Coq 8.16.1 kernel (and `vm_compute`).
* `Print Assumptions` output: see section 4 (kept current).
* The faithfulness of the reading of the C code (section 3 says what is modelled).
* The contracts of the external libraries listed above.

## 3. Plan per property

| id | modelled | how |
|----|----------|-----|
| C01 | joint state machines of all 8 joint types, all setters | invariant over op list |
| C02 | cached sin/cos/attitude | invariant over op list + equality of transforms |
| C03 | Xform of 8 types | algebra, orthonormality of rotations |
| C04 | Xform/IncVel of 8 types over R | derivability (Coq.Reals derivable_pt_lim) |
| C05 | SetDisCNT | proved in range; `_refuted` witness otherwise |
| C06 | Set/GetFrictionPivot as coded | proved for revolute; `_refuted` others |
| C07 | CopyState | algebra on reachable states |
| C08 | Clone | proved for state, `_refuted` for limits |
| C09 | KFriction | ordered field reasoning |
| C10 | CalcTrq / IncVel | algebra |
| C11 | axis tables / IncVel | algebra |
| C12 | type name table | case analysis on strings |
| C13 | shared function table mutated by brfloat | `_refuted` |
| C14,C15 | motors | invariant over ops, ordered field |
| C16,C17 | wrench lists | induction |
| C18-C22 | mass properties, bodies | algebra / ordered field |
| C23-C26 | link array with index pointers, fuelled recursion | refinement to rose trees |
| C27-C29 | chain joint vectors | list induction |
| C30-C36 | tree kinematics and Jacobians | tree induction |
| C37 | accelerations | derivative for all but float; `_refuted` float |
| C38,C39 | inverse dynamics | tree induction |
| C40,C41 | articulated body algorithm | tree induction; `_refuted` for prismatic/cylindrical bias |
| C42 | trial external forces | state equality |
| C43,C44 | ZMP, yaw torque | algebra; yaw `_refuted` |
| C45 | contact lookup | list induction |
| C46-C52 | IK registers, constraint assembly, solver loop | list induction, linear algebra |
| C53-C58 | collision detector registry and checks | invariants, `_refuted` for the defects |
| C59,C69-C72,C76 | boundary representations: conversion, truncation, reset, orientation | invariant over faces and planes; `_refuted` for the way back |
| C73-C75 | chain description files: saving and loading, posture files, files of any content | sections filled one after the other, connection replayed as `rkLinkAddChild` calls (C23), then the passes of C24; `_refuted` for missing material and motors, neutral joints, malformed files |
| C60 | motor lookup and clone | list induction |
| C61 | body clone | algebra |
| C62 | energy along motions, over R | derivative; `_refuted` float |
| C63 | incremental articulated body updates | tree induction |
| C64 | contact information at the level of keys | list induction |
| C65 | IK cell attributes by mask | case analysis |
| C66 | IK rows as derivative of the error, over R | derivative; `_refuted` for a relative cell |
| C67 | IK sequence cells | list induction |
| C68 | continuing contact vertices | algebra |
| C77 | joint torsion | algebra from `ConfLaws`; over R for every rigid deviation; `_refuted` for flipped axes, tiny tilts, gimbal lock |
| C78 | configuration vectors | tree induction on top of C77 and C24; `_refuted` for a bent universal joint |
| C79 | evaluation of IK | list induction; `_refuted` for disabled axes |
| C80 | impedance references, over R | algebra on C36 |
| C81 | configuration files of IK | induction on the keys with the invariant of C47; `_refuted` for files with errors |
| C82 | sequence files of IK | list induction; `_refuted` for items without entries |
| C83 | inertia matrix of inverse dynamics | virtual power (C38), induction from the root: accelerations are affine in the joint accelerations with the link velocities as linear part |
| C84 | conversion of URDF: structure, poses, shapes | the element evaluators by fold lemmas; the joint list of the converter simulates the insertion operations of C24 (`Urdf_Tree.v`), so the walk over joints meets every joint after its parent (`Urdf_Walk.v`); composed with reading of the file (`Urdf_Read.v`); a turn R of a link frame satisfies R rot_z(q) = rodrigues(q, R z) R; `_refuted` for rotated origins, root not first, repeated names |
| C85 | conversion of URDF: mass properties | from the walk; `_refuted` for center of mass and for inertia below a turned link |
| C86 | conversion of URDF: joint attributes | from the keys; `_refuted` for dynamics, types, default limits, continuous joints |
| C87 | mass property printed by rk_mp | accumulated mass, first moment and inertia about the origin; compared through momentum, angular momentum and energy of rigid motions; `_refuted` below the tolerance |
| C88 | CAD tables converted to a chain file | sections written for a table are computed row by row; reading them through `file_load` (the lemma of C84) on the tree of the table; induction on the path from the root for the home pose; `_refuted`: the program exits first, root not in the first row, shape of an unknown link |
| C89 | CAD tables converted to a URDF file | elements read with the reader functions of urdf2ztk; `_refuted`: unreadable by urdf2ztk for every table, order of angles, unsupported joints |
| C90 | what rk_fk prints along a sequence | two chains that agree in what rkChainFK reads give the same poses (relation through the tree pass); induction on the sequence; `_refuted`: empty sequence |
| C91 | what rk_id prints along a sequence | a step with rkChainFKCNT on the chain with its history equals rkChainFK and rkChainID with the backward differences on the chain as read (relations through the three tree passes); induction on the sequence with the displacements and velocities held by the joints; `_refuted`: more than half a turn, uneven time steps, free fall |
| C92 | what rk_ik prints along a sequence | invariant kept by the calls of a step (joints steady at their displacements, frames posed, velocities zero on registered columns, cells attached and unforced); totality from that of the solver (C49, C50), targets by induction on the sequence, an empty step because binding makes every error zero and the minimiser is then zero; `_refuted`: weights stay for later steps, initial postures are bound to stale frames |
| C93 | what zvs2zkcs prints, and that it can be read back | as C90 (no history through `near`); C78 for the chain after rkChainFK, whose joints are settled; `_refuted`: with an output file nothing is written (it is opened for reading) |
| C94 | the initial posture zvs2zkci prints, read by a copy of the chain | C74 for the chain after rkChainFK; `_refuted`: joints neutral in the step are not printed and keep what the reader has; a sequence without steps |
| C95 | the contact section of rk_ground carries the mass at the depth with the damping asked for | over R (sqrt): stiffness and viscosity computed, read back by C64; characteristic equation; `_refuted`: four arguments, depth below zero, names printed from null pointers |
| C96 | ikcell_merge puts seed files together record by record | induction on the records of the shortest file; staging; `_refuted`: sequence files in the present format |
| C97 | vertices and bounding ball of a chain | induction on links and shapes; the smallest ball is unique (a ball about the middle of two centres is smaller); poses by induction on the lineage. `zBBall3DPL` is a parameter: that it gives an enclosing or smallest ball of the list at hand is a hypothesis |
| C98 | contiguous vertex of a body | distances are kept by rigid frames; `zShapeListContigVert` is a parameter: that it gives a nearest vertex is a hypothesis |
| C99 | a chain converted to shapes and back keeps its vertices | reading of the file that mshape2chain writes; permutation of the shapes; `_refuted`: a shape on two links |
| C100 | measure of manipulability | the determinant of J J^T is a sum of squares of triple products, by induction on the columns; with C32 for chains. `sqrt` is a parameter: not negative, and zero exactly at zero (proved for the real square root) |
| C101 | methods that resolve the joint velocities (MP, SR) and iteration with any method | SR: its matrix is that of AD (C49) with weights that make up for the damping, so the expansion of the cost is reused with the positivity of the weights themselves. MP: `zLESolveMP` is external; per call it is assumed to satisfy the normal equation and to lie in the weighted row space, from which least residual and least norm are derived. Report and limits of C50 are proved again for an arbitrary method |
| C102 | URDF documents in any order of elements and attributes, with zero origins left out | steps of the evaluation for elements with different tags commute (for a joint: parent and child binding against changes of the joint itself), so the fold may be sorted by tag (`UrdfForm_Proofs.v`); then C84 carries over |
| C103 | order of the keys in the sections of a chain file | key handlers of different keys commute (state invariant for `[init]`: the names of the links); exchange of neighbours lifted to sections and to the file; `_refuted`: displacement before or after limits, keys after one that fails |
| C104 | what forced position cells ask for over a history of steps | one step of the solver adds the error to the accumulator of a forced enabled cell, every other call except clearing, rkIKSolve and removal keeps it; induction over the history; rows by C48 |
| C105 | a chain mounted elsewhere | the frame, rate and wrench passes commute with the map that moves frames and world centres of mass (walk lemmas over the forest of the tree); the root differs only in its mount, whose effect on the base acceleration vanishes when the vertical is kept |
| C106 | normal, axes, centre and volume of colliding pairs | loop over pairs and their data with the invariant of C55 (cached polyhedra up to date), so that the data are those of the placed polyhedra alone; area vectors of the faces as sums over directed edges, which cancel on a closed surface; `_refuted`: rkCDColVol keeps the old normal, rkCDColVolBREPFast destroys B-Reps it has not made |
| C107 | rkCDColVolBREPVert: rigid pairs and the others in one call | the same loop lemma; per pair the result of rkCDColVolBREP or of rkCDColChkVert (CD_Inv); `_refuted`: contact vertices of rigid pairs are kept from earlier calls |
| C108 | forward dynamics of a chain mounted elsewhere | the passes of the articulated body algorithm commute with the map of C105 on links with their working memory (walk lemmas by induction on the fuel, no inverse matrix law used); gravity in a link is unchanged when the vertical is kept, and the mount of the root meets only zero parent velocity and acceleration |
| C109 | inverse dynamics is linear in the mass properties | frames, velocities and accelerations do not read the mass properties, so runs on chains that differ only in them are related link by link (`peq`); the net wrench of a link is written with its mass, first moment and inertia about the origin, in which it is linear; the recursive sums over the children keep the relation; combining with a payload adds those moments (C18) |
| C110 | the same motion at another tempo | joint velocities times k and accelerations times k², gravity and external wrenches times k²: each joint's contribution to the rates is homogeneous of degree 1 and 2, so the passes of both runs are related link by link over the tree (`solved`, `solved_up`); earlier rates and torques of the links are not read |
| C111 | chain2gp draws the faces of the chain | the output is a list of lines; a small reader of gnuplot data (`surfaces`) gives one surface of two rows for each face, and such a surface with two equal corners has exactly the points of the triangle; shapes that are no polyhedra are undefined behaviour (witness) |
| C112 | the inertial ellipsoid of a mass property | the surface is described without the eigenvectors, as the unit sphere mapped by the inertia tensor, so the choice and order of the axes do not matter; zMat3DSymEig of ZEO is a parameter with the hypothesis `eig_ok` (orthonormal vectors, each stretched by its value) at each matrix it is called on |

## 4. What is trusted, in detail

### 4.1 Print Assumptions

Every theorem named in `MANIFEST.json` is followed by `Print Assumptions` in its file.  Only axioms of
the standard library occur, all of them through the real numbers:

| theorems | assumptions |
|----------|-------------|
| `C04_inc_vel_adds`, `C21_com_rates`, `C21_net_wrench_is_momentum_rate`, `C21_power_is_energy_rate` | `ClassicalDedekindReals.sig_forall_dec`, `FunctionalExtensionality.functional_extensionality_dep` |
| `C04_inc_vel_is_derivative`, `C36_velocity_is_derivative`, `C36_com_velocity`, `C37_acceleration_is_derivative_partial`, `C37_com_acceleration_partial`, `C37_float_acceleration_refuted`, `C62_energy_balance_partial`, `C62_float_energy_refuted`, `C66_error_rate_partial`, `C66_relative_error_rate`, `C80_position`, `C80_attitude`, `C80_com` | these two and `ClassicalDedekindReals.sig_not_dec` |
| `C66_relative_cell_refuted`, `C77_torsion_splits`, `C77_flipped_axis_refuted`, `C78_configuration_R`, `C78_bent_universal_refuted` | these three and `Classical_Prop.classic` |
| all others | closed under the global context |

### 4.2 Contracts of code outside the repository

ZEDA, ZM and ZEO are not in `/repo`.  Where a function of theirs is a finite computation on numbers, the model
computes it (`Vec.v`).  The rest are parameters:

* `Ext`/`ExtLaws` (`Joint_Model.v`): sine and cosine (sum of squares 1), phase normalisation, rotation matrices from
  angle-axis vectors (orthonormal, determinant 1), composition and error of rotations, the tolerance of `zIsTiny`.
* `MInv` (`ABI_Model.v`): `zMatInv` of a small matrix; theorems that need it assume that it returns an inverse.
* `IKExt` (`IK_Model.v`): the linear equation solver; theorems that need it assume `le_laws`, that it
  returns a solution of a regular equation.
* `MPExt` (`IKMeth_Model.v`): `zLESolveMP`; theorems that need it assume `mp_solution` of the call in question: the weighted
  residual is orthogonal to the columns, and the result scaled by the weights on the norm is a combination of the rows.
  `zLESolveSRDST` is taken to solve (J^T We J + Wn) x = J^T We b by the solver of `IKExt`.
* `eig` (`Ellips_Model.v`): `zMat3DSymEig`; theorems assume `eig_ok` of the calls in question: orthonormal eigenvectors with
  their eigenvalues.
* `CDExt` (`CD_Model.v`): bounding boxes and the tests of boxes and polyhedra.
* `zList`: `zListForEach` goes from the tail to the head; `zListInsertHead` appends at the end of that order,
  `zListInsertTail` prepends.  `zAlloc` gives cleared memory.  `zArrayAlloc` with size 0 gives an empty array.
* `ZtkLib` (`Ztk_Model.v`): the name given to an unnamed object, and whether evaluation of a section or a file goes on
  after a handler returned NULL; the theorems hold for all choices.  `ZTKEvalKey` calls the handlers in the order of
  the keys in the file; `ZTKPrpTagFPrint` and `ZTKPrpKeyFPrint` skip entries without printer; a printed number is read
  back exactly (`%.10g` rounds in fact); shapes are printed and read by ZEO under their names, in order.
* `ConfExt`/`ConfLaws` (`Conf_Model.v`): `sqrt`, `atan2`, `zVec3DAngle`, `zMat3DToAA` and Rodrigues' formula for
  `zMat3DFromAA`; `Conf_R.v` proves the laws of the functions on the real numbers, and that `zMat3DToAA` inverts there.
* Files of the inverse kinematics solver (`IKConf_Model.v`): the local variable of attributes of a constraint is
  arbitrary (`junk`); the address of a new cell is the number of the cells; whether `zAlloc` of no entries gives NULL is a
  parameter; `zListForEachRew` over a queue goes in the order of `zQueueEnqueue`.
* `CadExt` (`Cad_Model.v`): `zMat3DToZYX`, no law assumed; `zyx_exact` is a premise where the angles matter.
* `UrdfExt`/`UrdfLaws` (`Urdf_Model.v`, `Urdf_Spec.v`): `zVec3DAAError` gives a vector that turns the one unit vector into the
  other unless they are opposite, and zero for equal ones; `zVec3DIsTiny` and `zMat3DIsIdent` are arbitrary tests.  A zXML
  document is a tree of elements with attributes, and the numbers in an attribute are what `sscanf` and `atof` read.
* Square roots occur only in `ConfExt` and `IKExt`; elsewhere norms are compared by their squares.

### 4.3 Modelled and not modelled, by file of `/repo/src` and `/repo/app`

| file | modelled | not modelled |
|------|----------|--------------|
| rk_joint.c, rk_joint_*.c | state, limits, transforms, rates, torques, friction, motor access, clone, ABI methods, name table, breakable joints with the shared method table, description keys, torsion | the text of keys and values |
| rk_motor*.c | all three types, array lookup, clone, description keys | the text of keys and values |
| rk_force.c | wrench lists, net wrench | printing |
| rk_body.c | mass properties, combination, transformation, momenta, energies, net inertial wrench, clone, contiguous vertex (Shape_Model.v), `rkMPInertiaEllips` (Ellips_Model.v) | number of divisions of the ellipsoid, contents of shapes, ZTK text |
| rk_link.c | tree editing and all passes, joint access, description keys, displacements from frames | the text of keys and values, other printing |
| rk_chain.c | joint vectors, tree, kinematics, inverse dynamics, ZMP, momenta, clone, copy of states, description and posture files at the level of keys, configuration vectors; vertices and bounding ball (Shape_Model.v) | contents of shapes, text of files |
| rk_jacobi.c | all Jacobians; `rkJacobiManip` for three rows (Manip_Model.v) | `rkJacobiManip` of matrices with other numbers of rows, which rk_jacobi.c does not make |
| rk_abi.c | all but destruction; the two trial wrench cells are distinct from all others | |
| rk_contact.c | lookup; reading and printing at the level of keys | the text of keys and values |
| rk_ik.c, rk_ik_cell.c, rk_ik_imp.c, rk_ik_seq.c | cell registry, joint registry, index, constraint assembly, error-damped method, solver loop, methods MP and SR and the solver loop with any method (IKMeth_Model.v), impedance, sequence cells, configuration files, sequence files | of configuration and sequence files, how text becomes keys and numbers |
| rk_cd.c | cell and pair registry, all collision checks, contact vertices; what the volume computations write to the pairs (Vol_Model.v) | see the heads of `CD_Model.v` and `Vol_Model.v` |
| rk_cd_brep.c, rk_cd_brep_trunc.c | conversion, truncation, reset | see the head of `Brep_Model.v` |
| app/urdf2ztk.c | evaluation of links, joints and the tree, correction of frames, output at the level of keys | XML text, materials, dimensions of shapes; see the head of `Urdf_Model.v` |
| app/rk_mp.c | reading of the index, accumulation, final shift | option handling, output format; a failed load is reported as success by `rk_mpCommandArgs` (`return 1` in a bool function), not modelled |
| app/cad2ztk.c | rows of both tables, association of parents, relative frames, mass properties in the frame of the link and in kg and m, sections of the chain file, elements of the URDF file, numbers of the conversion script, order of `main` | CSV and option parsing, text output and its rounding, optical sections, names of mesh files; `row_csv` orders the columns as the documentation printed by the program says ("Ryx stands for the x component of the y base vector"); the name "nil" for the parent of the root is from the code, the documentation does not mention it |
| app/rk_fk.c | choice of the link by name, `rk_fkOutput`, loop of `main` (Seq_Model.v) | option parsing, reading the chain, state and sequence files, text output; zMat3DToZYX is a parameter without laws (`x_m2zyx`); a sequence (zSeq of ZM) is the list of its cells from the head, with the time to the next step in each |
| app/rk_id.c | `rk_idOutput`, loop of `main` (Seq_Model.v) | as for rk_fk.c; the seven log files are one record per step; an uninitialised ZMP (rkChainZMP returning NULL) is undefined behaviour |
| app/rk_ik.c | reading of the configuration, loop of `rk_ik_solve` (Ikapp_Model.v) | options, messages, files, rounding of the output; what rkIKSolve and rkIKSeqScanFile return is ignored by the program and so by the model |
| app/zvs2zkcs.c | loop of `main`, opening of the output file (Zvs_Model.v) | reading of the chain and sequence files, rounding of the output; that writing to a stream opened for reading writes nothing is taken from the C standard library |
| app/zvs2zkci.c | choice of the step, reading of the initial posture, posture printed (Zvs_Model.v) | as above; zSeqJump of ZM is taken to find the n-th step, and a number beyond the sequence as undefined |
| app/rk_ground.c | `main` (Tools_Model.v) | atof; rounding of the output; what printf makes of a null string is a parameter (`None`: undefined) |
| app/rk_ikcell_merge.c | `ikcell_merge_exec` (Tools_Model.v) | opening of files, comments, rounding of the output; zFInt on numbers that are no non-negative integers, and records cut off by the end of the file, are outside the model |
| app/chain2mshape.c, app/mshape2chain.c | `chain2mshape`, `mshape2chain` (Shape_Model.v) | names of output files, optical sections, text of shapes; the shapes printed are those read back |
| app/chain2gp.c | `output_shape`, `conv_chain` (Gp_Model.v) | reading of the chain file, options, text of numbers; zShape3DFaceNum and zShape3DFaceVert of ZEO are taken to read the polyhedron data whatever the type of the shape is |

Assumed throughout: every link has a joint assigned (`rkJointAssign`), names are non-null strings, and memory
allocation succeeds.  Fields that nothing modelled reads are left out.

## Mutation runs

`seeded/LOG.jsonl` has one line per mutant.  A script edits one definition in a copy, compiles the files that depend on it,
and lists the theorems that rest on a proof that no longer goes through.  Up to line 569 it also counted a file that took
more than 150 s as failed.  Ten lines named `C13_ex` for this reason only; they carry a `correction`, and two of these
mutants had in fact survived (`zero_rate`, `abi_purge_w`), which led to `C42_no_joints`, `C42_ex_lists` and `C42_lists_kept`.  Other files that
come near the limit on a busy machine are `ZtkOrder_Proofs.v` (`joint_comm`) and `Joint_Proofs.v` (`clone_*`); lines that name
only theorems resting on these should be read with this in mind unless they say that they were run again.
