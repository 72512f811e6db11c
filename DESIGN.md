# Formal model of baptistelabat/frydom in Rocq (Coq 8.16.1)

## Approach

* `rocq/theories/<Topic>Model.v` – the model: small total Gallina definitions, each with a
  comment citing the file and lines of /repo it models and every simplification made.  No proofs.
* `rocq/theories/<Topic>Spec.v` – (where needed) the independent specification: textbook notions
  (mathematical meaning of an expression, surface integral over a triangle, rigid velocity field,
  list of point masses, ...), written without reference to the model's helpers.
* `rocq/theories/<Topic>Proofs.v` – lemmas.
* `rocq/theories/<Topic>Props.v` – only the property theorems (`exact lemma`), followed by
  `Print Assumptions`, with `Example`s showing that the hypotheses are met by concrete cases.

`double` arithmetic is modelled by the real numbers `R` of Coq's standard library: a theorem about the
model says that the *formulas and the control flow* of the code are right; rounding is not modelled.
Special double values are modelled explicitly where the control flow uses them (an `INFINITY` cache key
is `None`; an out-of-domain libm call, an uninitialised read, an out-of-bounds index, a null dereference
and a failing `assert` are distinct outcomes).  Objects with mutable state are modelled by a state record
and functions returning the new state; a virtual-call tree by an inductive type.

When the code violates a property, the full statement is kept in view and we prove
`..._refuted` (the negation, with a concrete witness) and, under the hypotheses that make it true, a theorem
with suffix `_partial`.

## Plan per property

| id | model | proof method |
|----|-------|--------------|
| C01 | object trees with the caches of FrFunctionBase and all library nodes; evaluation as a state transformer | invariant "every cache entry is right", induction on the tree, then on the query list |
| C02 | same trees; denotation in R | induction on the tree, chain rules (stdlib `derivable_pt_lim`) |
| C03 | copy constructor that drops the offset | refutation + partial for direct use |
| C04 | asinh node calls acosh | refutation + partial (value where it is defined) |
| C05 | compound assignment acting on the inner function | refutation + partial |
| C06, C07 | clamp / saturate nodes with their caches | invariant + case analysis |
| C08 | ramps as clamped trees | real analysis (monotonicity, continuity, derivative) |
| C09, C10 | setters / tanh ramp state | refutation + partial |
| C11 | swap on R^3 | algebra (`ring`) |
| C12 | Torsor.cpp | algebra |
| C13 | quaternions over R | algebra (`ring`, `nsatz`-free) |
| C14 | FrEulerAngles.inl | trigonometry; gimbal branch as an uninitialised read |
| C15, C16 | FrFrame over quaternion + position | algebra |
| C17 | FrNode over body frame and COG | algebra |
| C18, C19 | FrInertiaTensor, FrAssembly | refinement to lists of point masses, induction over the parts |
| C20, C21 | FrBody kinematics | algebra over frames |
| C22 | FrForce | algebra; square roots for the clipping |
| C23 – C27 | registries as lists / string sets, operations as transition functions with error outcomes | invariants by induction on operation sequences |
| C28 | FrTimeRecorder buffer | invariant relating the buffer to the recorded signal |
| C29 | TrapzLoc | induction on the list |
| C30, C31 | face and polygon integrals | explicit iterated integrals over the simplex (Coquelicot `RInt`), induction on the polygon |
| C32, C33 | mesh = list of oriented triangles, watertight = oriented edges cancel | discrete Stokes: sums of edge functions vanish |
| C34, C35 | clipper | bisection invariant; case analysis |
| C49 | function algebra, see FunProps | induction on trees |
| C50 – C52 | mesh: wave torque, inertia, history independence | refutation by an explicit box; divergence theorem; invariant over operation sequences |
| C53 | whole clipping loop on (vertices, tags, faces, deletion list); OpenMesh's circulator order and half-edge numbering are arbitrary parameters | invariant + termination measure (number of crossing edges per face); permutation argument for the lid; affine functions on triangles for the exact version |
| C54, C55 | FrHydroMesh::Compute and ImportMesh | divergence theorem; explicit counterexamples |
| C36 | FrHydrostaticsProperties on the mesh model of C32 | sums of polygon integrals, divergence theorem for the moving wetted surface, derivatives of the load; refutation of idempotence |
| C56, C57 | FrHydroStaticEquilibrium: loops with fuel, body of C20, clipping function and LU solver arbitrary parameters, uninitialised local as a parameter | induction over the turns of the loops; explicit witnesses |
| C48, C59, C60 | FrEquilibriumFrame and its two subclasses on the body/node model of C17-C20; recorders of C28; uninitialised member as a parameter | invariants over update lists (stands P+tv, psi+tw); exact quadratic invariant of the discrete oscillator; explicit witnesses |
| C58 | FrLinearHydrostaticForce::Compute on the perturbation frame | Cardan extraction lemmas of C14; derivative linked to C36_stiffness_is_derivative |
| C37 – C39 | wave fields with std::complex as Coquelicot's C, tables with checked indices, stretching classes | derivatives of each component, sums over components by induction |
| C40 | Newton loop with fuel | partial correctness, strict monotonicity of x tanh x |
| C41 | spectra | integral of an explicit primitive and its limit |
| C42 | vectorDiscretization | induction on lists, refutation at length 3 |
| C43 | direction conventions; mathutils' in-place normalisation as a parameter | congruence modulo a turn; refutation with bounds on pi |
| C61 | plain and optimised regular field as transition systems over calls | simulation by induction on histories |
| C62 | SetWavePeriod as a transition | invariant; two-call counterexample |
| C44 | bisection over the reals and, for one spectrum, over SpecFloat binary64 | termination by halving; Lipschitz bounds of the spectra for success; fixed point of the loop body by kernel computation for the refutation |
| C63 | cos2s spreading, its constant (tgamma on naturals = factorial), direction band | Wallis recurrence by induction; bisection lemmas of C44 |
| C64 | irregular field as a transition system over configuration calls with an undefined outcome for bad indices and null pointers | invariant over histories; concrete orders for the refutations |
| C65 | WriteToJSON/LoadJSON through the document | equality of states; computed counterexample for the optimised field |
| C45, C46 | catenary line as a transition system over Initialize/Compute/Update/setters, `Undef` for divisions by zero and singular matrices | derivatives, integrals of an explicit primitive, positive-definite Jacobian |
| C47 | cable properties | algebra + refutation |
| C66 | Newton loop with fuel, damping loop, Matrix33::Inverse by cofactors | strict monotonicity along segments of tensions (uniqueness, accuracy); explicit orders for the refutations; convergence not provable without a bound on the start |
| C67 | UpdateState, GetStrainedLength as a 1000-point polyline | induction on histories; chord against arc by Cauchy-Schwarz |
| C68 | FrCatenaryForce on the body model | wrench theorem C22; moment integral |
| C69 | FrUniformField, FrFlowBase, FrEnvironment relative velocity and fluid type (FloModel) | trigonometric identities; induction on histories; quaternion algebra |
| C70 | FrLinearDamping, FrQuadraticDamping, FrITTCResistance on the body model | wrench theorem C22; quadratic form; counterexamples for the check |
| C71 | FrManDampingTaylorExpansion: parameters as sequences of setter calls | induction on calls against a list of terms; counterexamples for the cubic term and the power |
| C72 | FrWindStandardForce, FrCurrentStandardForce with their asserting setters; uninitialised m_xCenter as None | atan2/acos facts, C22; invariant of the setters by induction |
| C73 | FrFlowForce::ReadTable (completion, removal, conventions, sort) and LookupTable1D contract | sorting as permutation, increasing tables, neighbours of any direction; mirror closure |
| C74 | FrFlowForce::Compute | composition of C22, C73 and the horizontal frame |
| C75 | FrRadiationConvolutionModel (recording, convolution, skip at system time), FrRadiationConvolutionForce (RadModel) | induction on calls over the recorder theorem of C28; interpolation lemma; linearity as a relational invariant of three runs |
| C76 | ConvolutionKu | as C75; two-body and astern counterexamples |
| C77 | FrBEMDOFMask::SetMask | 64 cases over any earlier state; counterexample for a second call |
| C78 | GetImpulseResponseSize, Initialize | floor arithmetic; division by zero as Undef |
| C79 | FrHydroMapper as finite maps | induction on mappings |
| C80 | FrBEMBody kernel and added-mass setters | induction on tables; interpolation at nodes |
| C81 | FrLinearHDBForce, FrBEMBody excitation tables, ExcitationReader (ExcModel) | interpolation lemmas; invariant of the reader loop; wrench theorem C22 |
| C82 | as C81 | linearity of sums; Cauchy-Schwarz |
| C83 | as C81, ComputeExcitation | linearity of the interpolation |
| C84 | Initialize | the interpolation succeeds exactly inside the table |
| C85 | Initialize called again | general lemma (nothing changes); concrete counterexample |
| C86 | as C81 | concrete counterexample |
| C87 | as C81 with FrBEMDOFMask | cases over masks |
| C88 | FrWaveDriftForce, LookupTable2d contract | bilinear interpolation, exchange of sums |
| C89 | as C88 | linearity |
| C90 | as C88 | general theorem of failure; rolled ship |
| C91 | FrNonLinearFroudeKrylovForce | induction on faces; divergence theorem of the mesh group |
| C92 | as C84 with FrNullWaveField | instance of C84 |
| C93 | as C88 | concrete counterexample |
| C94 | as C01 | split from C01: concrete counterexample and, where useful, the exact actual behaviour |
| C95 | as C03 | split from C03: concrete counterexample and, where useful, the exact actual behaviour |
| C96 | as C06 | split from C06: concrete counterexample and, where useful, the exact actual behaviour |
| C97 | as C07 | split from C07: concrete counterexample and, where useful, the exact actual behaviour |
| C98 | as C11 | split from C11: concrete counterexample and, where useful, the exact actual behaviour |
| C99 | as C14 | split from C14: concrete counterexample and, where useful, the exact actual behaviour |
| C100 | as C16 | split from C16: concrete counterexample and, where useful, the exact actual behaviour |
| C101 | as C17 | split from C17: concrete counterexample and, where useful, the exact actual behaviour |
| C102 | as C19 | split from C19: concrete counterexample and, where useful, the exact actual behaviour |
| C103 | as C23 | split from C23: concrete counterexample and, where useful, the exact actual behaviour |
| C104 | as C24 | split from C24: concrete counterexample and, where useful, the exact actual behaviour |
| C105 | as C27 | split from C27: concrete counterexample and, where useful, the exact actual behaviour |
| C106 | as C28 | split from C28: concrete counterexample and, where useful, the exact actual behaviour |
| C107 | as C30 | split from C30: concrete counterexample and, where useful, the exact actual behaviour |
| C108 | as C31 | split from C31: concrete counterexample and, where useful, the exact actual behaviour |
| C109 | as C34 | split from C34: concrete counterexample and, where useful, the exact actual behaviour |
| C110 | as C36 | split from C36: concrete counterexample and, where useful, the exact actual behaviour |
| C111 | as C37 | split from C37: concrete counterexample and, where useful, the exact actual behaviour |
| C112 | as C38 | split from C38: concrete counterexample and, where useful, the exact actual behaviour |
| C113 | as C40 | split from C40: concrete counterexample and, where useful, the exact actual behaviour |
| C114 | as C41 | split from C41: concrete counterexample and, where useful, the exact actual behaviour |
| C115 | as C42 | split from C42: concrete counterexample and, where useful, the exact actual behaviour |
| C116 | as C43 | split from C43: concrete counterexample and, where useful, the exact actual behaviour |
| C117 | as C44 | split from C44: concrete counterexample and, where useful, the exact actual behaviour |
| C118 | as C45 | split from C45: concrete counterexample and, where useful, the exact actual behaviour |
| C119 | as C47 | split from C47: concrete counterexample and, where useful, the exact actual behaviour |
| C120 | as C48 | split from C48: concrete counterexample and, where useful, the exact actual behaviour |
| C121 | as C51 | split from C51: concrete counterexample and, where useful, the exact actual behaviour |
| C122 | as C54 | split from C54: concrete counterexample and, where useful, the exact actual behaviour |
| C123 | as C57 | split from C57: concrete counterexample and, where useful, the exact actual behaviour |
| C124 | as C58 | split from C58: concrete counterexample and, where useful, the exact actual behaviour |
| C125 | as C59 | split from C59: concrete counterexample and, where useful, the exact actual behaviour |
| C126 | as C60 | split from C60: concrete counterexample and, where useful, the exact actual behaviour |
| C127 | as C61 | split from C61: concrete counterexample and, where useful, the exact actual behaviour |
| C128 | as C62 | split from C62: concrete counterexample and, where useful, the exact actual behaviour |
| C129 | as C63 | split from C63: concrete counterexample and, where useful, the exact actual behaviour |
| C130 | as C64 | split from C64: concrete counterexample and, where useful, the exact actual behaviour |
| C131 | as C65 | split from C65: concrete counterexample and, where useful, the exact actual behaviour |
| C132 | as C66 | split from C66: concrete counterexample and, where useful, the exact actual behaviour |
| C133 | as C67 | split from C67: concrete counterexample and, where useful, the exact actual behaviour |
| C134 | as C69 | split from C69: concrete counterexample and, where useful, the exact actual behaviour |
| C135 | as C70 | split from C70: concrete counterexample and, where useful, the exact actual behaviour |
| C136 | as C71 | split from C71: concrete counterexample and, where useful, the exact actual behaviour |
| C137 | as C72 | split from C72: concrete counterexample and, where useful, the exact actual behaviour |
| C138 | as C73 | split from C73: concrete counterexample and, where useful, the exact actual behaviour |
| C139 | as C76 | split from C76: concrete counterexample and, where useful, the exact actual behaviour |
| C140 | as C77 | split from C77: concrete counterexample and, where useful, the exact actual behaviour |
| C141 | as C78 | split from C78: concrete counterexample and, where useful, the exact actual behaviour |
| C142 | as C79 | split from C79: concrete counterexample and, where useful, the exact actual behaviour |
| C143 | as C80 | split from C80: concrete counterexample and, where useful, the exact actual behaviour |
| C144 | as C39 | split from C39: concrete counterexample and, where useful, the exact actual behaviour |
| C145 | as C49 | split from C49: concrete counterexample and, where useful, the exact actual behaviour |
| C146 | as C56 | split from C56: concrete counterexample and, where useful, the exact actual behaviour |
| C147 | as C26 | split from C26: concrete counterexample and, where useful, the exact actual behaviour |
| C148 | as C25 | split from C25: concrete counterexample and, where useful, the exact actual behaviour |
| C149 | as C85 | split from C85: concrete counterexample and, where useful, the exact actual behaviour |
| C150 | as C87 | split from C87: concrete counterexample and, where useful, the exact actual behaviour |
| C151 | FrRadiationModelBase (AmModel) | flat indices against blocks, induction on the list of bodies |
| C152 | FrVariablesBEMBodyBase | matrix algebra over flattened sums; positive definiteness |
| C153 | IntLoadResidual_Mv, DiagonalAdd, Build_M | induction over bodies with a frame condition |
| C154 | as C152 | two coupled bodies, inverse checked entry by entry |
| C155 | as C152 | counterexample |
| C156 | as C152 | counterexample |
| C157 | as C153 | ship heading along y |
| C158 | FrMorisonElement::SetFrame on the body model (MorModel) | orthonormality of the axes through the quaternion of the frame; invariants of body histories |
| C159 | Update, GetFlowVelocity (MorModel) | projection algebra with turn maps |
| C160 | FrMorisonCompositeElement::Update | induction on the tree of elements |
| C161 | as C159, C160 | power of each tube is minus a sum of cubes; sum over the tree |
| C162 | AddElement with n elements | induction on the division; sum of the middles |
| C163 | as C159 | body pitched by 90 degrees in a flow along the tube |
| C164 | as C162 | for every initial content of the memory the flag stays |
| C165 | as C158 | the assertions of the rotation fail for every tolerance below 1/2 |
| C166 | as C159 | tube without added mass on an accelerated body |
| C167 | group_run, Initialize | induction on the history |
| C168 | as C167 | two levels |
| C169 | drag of C159 | flow (3, 4, 0) on a vertical tube |
| C170 | GenerateCache on the body model (LnkModel) | composition of rigid maps |
| C171 | as C170 | rigid velocity fields in the axes of the nodes |
| C172 | as C171 | a body turning about a fixed node |
| C173 | as C171 | lateral velocity read in both conventions |
| C174 | reaction getters (LnkModel) | moments about every point |
| C175 | RUpdate, rev_run (LnkModel) | induction on the history; increments modulo 2 pi |
| C176 | GetNbTurns, GetRelativeLinkAngle | truncation of an integer quotient |
| C177 | SetRestAngle, UpdateCache | angle of the quaternion of a rotation |
| C178 | as C177 | every a; a joint at -pi/2 |
| C179 | UpdateForces, spring getters | wrench algebra under the joint |
| C180 | UpdateForces, spring getters | wrench algebra under the joint |
| C181 | rev_step RClamp | a joint at -pi/2 |
| C182 | linear_motor_coordinate | axes of the motor frame, for every position |
| C183 | FrActuator getters | every node |
| C184 | FrActuator getters | wrench algebra under the joint |
| C185 | mask_run, SetMask, chrono_mask | induction on the history |
| C186 | as C185 | computation |
| C187 | flag_run | induction on the history |
| C188 | as C187 | two sequences |
| C189 | FrCPlane (LnkModel) | vector algebra, Cauchy-Schwarz |
| C190 | as C189 | every node and point |
| C191 | point_on_line_frame | rotation by a quarter about local axes |
| C192 | InitializeLockedDOF (LnkModel) | canonical form of reachable bodies |
| C193 | Tidal2, TableEval (EnvModel) | linear interpolation lemmas |
| C194 | as C193 | value at the last node |
| C195 | UTCTime3 (EnvModel) | arithmetic |
| C196 | as C195 | computation of the check |
| C197 | as C193 | all outcomes of reading and updating |
| C198 | env_run histories (EnvModel) | invariants over histories, last writer |
| C199 | as C198 | invariants over histories |
| C200 | as C198 | reached states |
| C201 | as C198 | last writer |
| C202 | as C198 | reached states after initialisation |
| C203 | as C198 | last writer over histories |
| C204 | GetReynoldsNumber, GetFroudeNumber (EnvModel) | algebra |
| C205 | as C203 | histories |
| C206 | GetFluidTypeAtPointInWorld (EnvModel) | C198 |
| C207 | TimModel | floor arithmetic |
| C208 | TimModel | calendar lemmas (400 year era) |
| C209 | as C207 | all zones |
| C210 | TimModel | unique solutions of local time |
| C211 | as C210 | Paris 2019-03-31 |
| C212 | as C210 | computation |
| C213 | tm conversion (TimModel) | calendar lemmas |
| C214 | GeoToCart (GgrModel) | orthonormal frames |
| C215 | SetGeographicOrigin (GgrModel) | periodicity |
| C216 | CartToGeo (GgrModel) | algebra |
| C217 | GetMagneticComponents, GetDeclination (GgrModel) | atan2 |
| C218 | as C217 | a point a quarter of the Earth away |
| C219 | SolveStatic (StcModel) | invariant of the loop; std::map as a list of first insertions |
| C220 | as C219 | simulation |
| C221 | as C219 | loop invariant, residual bounds every body |
| C222 | as C219 | emplace keeps the first insertion |
| C223 | as C219 | computation after the invariant |
| C224 | as C219 | time of the k-th iteration; induction on fuel |
| C225 | LSetDisabled, SetBroken (StcModel) | case analysis |
| C226 | as C225 | computation |
| C227 | makeItBox, makeItCylinder, makeItSphere, new_buoy (StcModel) | triple Riemann integrals (Coquelicot) of quadratic functions over the solids |
| C228 | as C227 | equality of point sets |
| C229 | buoy_run (StcModel) | Riemann integral of the slices |
| C230 | as C229 | two steps of the run |
| C231 | BuildRectangularMeshGrid (AstModel) | barycentric coordinates in the cell of a point; sum of signed areas by rows |
| C232 | BuildPolarMeshGrid (AstModel) | convexity of the sectors, areas by induction on the rings |
| C233 | as C232 | nth of the vertices |
| C234 | as C231 | all vertices on one side |
| C235 | sg_run (AstModel) | induction on the history |
| C236 | owner_Initialize, line_StepFinalize (AstModel) | induction on the loop |
| C237 | as C236 | computation |
| C238 | asset_run (AstModel) | induction on the history |
| C239 | as C238 | computation |
| C240 | mw_run (AstModel) | injectivity of the decimal writing |
| C241 | as C240 | computation |
| C242 | LoadPolar (AstModel) | induction on the rows |
| C243 | as C242 | computation |
| C244 | Update_auxiliary (ConModel) | blocks of the inverse mass (C151) |
| C245 | as C244 | computation on two bodies |
| C246 | dc_Initialize (DynModel) | induction on the loop |
| C247 | as C246 | induction on the loop |
| C248 | dc_GetTension, dc_GetNodePositionInWorld (DynModel) | integer part of the quotient |
| C249 | as C248 | integer part of the quotient |
| C250 | SetTargetElementLength (DynModel) | integer part |
| C251 | locks (DynModel) | cases |
| C252 | dc_Initialize (DynModel) | computation |
| C253 | getters (DynModel) | computation |
| C254 | dc_GetStaticResidual, dc_Relax (DynModel) | induction on the nodes |
| C255 | SlackInitialize (DynRegModel) | computation on lists |
| C256 | dc_Update (DynModel) | computation |
| C257 | polyRun (PolModel) | invariant over the history, on the function objects of FunModel |
| C258 | PowSecond (PolModel) | cases |
| C259 | as C257 | computation |
| C260 | mkdir (PolModel) | induction on the path |
| C261 | as C260 | computation |
| C262 | ReadDoubleArray, ReadIntArray (IoModel) | induction on the rows |
| C263 | ReadDoubleArraySTD (IoModel) | induction on the loop |
| C264 | ReadIntArraySTD (IoModel) | computation, induction |
| C265 | GroupExist (IoModel) | induction on the path |
| C266 | as C265 | computation |
| C267 | rrun, destroy (IoModel) | invariant over the history |
| C268 | as C267 | computation |
| C269 | FrConfig (IoModel) | cases |
| C270 | as C269 | computation |
| C271 | evrun (EvModel) | induction on the history |
| C272 | as C271 | invariant |
| C273 | as C271 | induction |
| C274 | event, fmt (EvModel) | induction on the text |

## Trusted base

* Coq 8.16.1 kernel (and `coqchk`).
* Axioms: [ASSUMPTIONS.md](ASSUMPTIONS.md) gives, theorem by theorem, what `Print Assumptions` lists (made by `tools/assumptions.py`). They are
  four axioms of the standard library: `ClassicalDedekindReals.sig_not_dec`, `ClassicalDedekindReals.sig_forall_dec` (the reals),
  `FunctionalExtensionality.functional_extensionality_dep`, and `Classical_Prop.classic` (Coquelicot, limits). The discrete modules have none.
* The reading of the C++ code: each definition of a `*Model*.v` file cites the file and the lines it models. [COVERAGE.md](COVERAGE.md) (made by
  `tools/coverage.py`) gives the header of every model file, which states its scope, its simplifications and the contracts it takes from other
  libraries; the source files cited by each model; those cited by none; and the list of the refuted claims.
* Contracts of the libraries whose source is not in /repo, written out in the model files and taken as true:
  - Chrono: ChVector, ChQuaternion, ChMatrix33, ChFrame, ChFrameMoving, ChBodyAuxRef, ChMarker (GeoModel, BodyModel); SetInertiaXX/XY, assemblies
    (InertiaModel); ChVariables fb and qb, Equals, ChConstraintTwoBodies (AmModel, ConModel); relative coordinates of ChLinkMarkers, ChLinkLock forces,
    reactions, ChLinkMotorLinear, ChLinkLockPointLine, Q_to_AngAxis (LnkModel); IsActive, DoFrameDynamics as a parameter, ChBox, update order of
    forces (StcModel); ChColor::ComputeFalseColor, order of assets (AstModel); ChMesh, Euler beams, ChLinkMateGeneric, Normalize (DynModel); removal
    from the lists of a system (RegModel);
  - boost::circular_buffer (SigModel), OpenMesh (MeshModel, ClipModel), Eigen normalize, inverses and LU solver (parameters), mathutils interpolation,
    angles and units (FloModel, WavModel, SeaModel, ExcModel), GeographicLib (GgrModel), H. Hinnant's date (TimModel), nlohmann::json (AstModel),
    cppfs (PolModel), and of the standard library std::lower_bound, std::to_string, unordered_map in some fixed order.
* `double` is a real number: no rounding, no infinities; where the program would divide by zero, read out of bounds or leave a domain, the model has a
  distinct outcome (`None`, `Undef`, ...). Exceptions are SeaModel's bisection, modelled in binary64. Uninitialised variables are parameters.
  `int` and `unsigned int` do not overflow. `std::complex` is Coquelicot's C.

## What is not modelled

Project Chrono itself (solvers, time integration, contact), accelerations of bodies, Irrlicht visualisation, the HDF5 library itself (the reader is modelled, C262-C268), YAML and CSV
input and output, colours, the text of JSON files (the configuration is modelled, C269-C270), collision models, OpenMesh's half-edge data structure, floating point rounding. COVERAGE.md lists the files.
