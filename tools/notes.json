{
 "C01": "Proved for every expression, object and query history. Clamps applied to queried functions: see the split-off refuted property. Values are tied to the textbook meaning (asinh excluded, C04). Complement: C94.",
 "C02": "Every expression without asinh, every reachable object and every regular abscissa; asinh's value and derivative disagree (C04).",
 "C03": "Direct queries of every reachable object. Complement: C95.",
 "C04": "Refuted for every operand value >= 1: FrHyperbolicTrigonometricFunctions.cpp:217 calls acosh.",
 "C05": "Refuted: op= acts on the inner function (sin(x) += 1 gives sin(x+1)), and dereferences null on leaf objects. Holds for pass-through objects.",
 "C06": "Every reachable clamp of a function not queried before clamping, after any queries. Complement: C96.",
 "C07": "Every reachable function and abscissa. Complement: C97.",
 "C08": "Full statement for every reachable ramp object (zero x-offset).",
 "C09": "Refuted for every coefficient pair: the setters do not rebuild the evaluated function. Only the coefficient getters follow the setters (partial).",
 "C10": "Refuted (query inside, query before the ramp, query inside again); proved for histories of interior queries, and for the plateau values in every history. The ramp is moreover shifted by x0 (end point refuted).",
 "C49": "Every abscissa but the cached one. Complement: C145.",
 "C11": "Vectors, quaternions, torsor points, rotation axes and frame positions. Complement: C98.",
 "C12": "Full statement: transport rule, transports compose, power does not depend on the reduction point.",
 "C13": "Full statement.",
 "C14": "Meaning, round trip and reported angles, both conventions; which rotations have undefined angles is in the split-off property. Complement: C99.",
 "C15": "Full statement.",
 "C16": "Every finite sequence of the well-behaved operations; the three others are in the split-off property. Complement: C100.",
 "C17": "Attachment and placement for every reachable body. Chrono's marker contract is trusted. Complement: C101.",
 "C20": "Full statement for every operation sequence from a new body (node methods of C17 excluded from the sequences of the first theorem only because their English meaning is false). Chrono's ChBodyAuxRef contract is trusted.",
 "C21": "Full statement for every reachable body and the six setters, including COG and node readings; also preserved by later calls that do not turn the body.",
 "C22": "Full statement: every setter sequence, every getter, limits, inactivity.",
 "C18": "Proved for arbitrary finite mass distributions: tensors built or reset at any unit-quaternion frame describe the distribution, reports at any frame, addition is union, assemblies of any number of bodies are the union at world positions, a body keeps its tensor through every operation other than SetCOG, the mass matrix gives the kinetic energy.",
 "C19": "Data given at a frame and all readers. Complement: C102.",
 "C23": "Every error-free history of registry calls. Assets are not modelled. Complement: C103.",
 "C24": "Every history, exceptions caught or not. Complement: C104.",
 "C25": "Every history and registry. Complement: C148.",
 "C26": "Every failing Add. Complement: C147.",
 "C27": "Every error-free history. Chrono's list operations are trusted. Complement: C105.",
 "C28": "Every recorder, new or cleared after use, and every sequence with increments in (0, step]. Complement: C106.",
 "C29": "Full statement (every number of points).",
 "C30": "Every monomial except YZ, XZ, XY, every mesh history. Complement: C107.",
 "C31": "Degree <= 2, any number of vertices, any fan apex, both conventions. Complement: C108.",
 "C32": "Full statement for every consistently oriented closed mesh after any history; extended to meshes with planar holes (boundary search included) and to area, centre of gravity, rigid motions, CreateBox.",
 "C33": "Full statement; also centre of buoyancy, and the form in terms of GetVolume/GetCOG of the clipped mesh.",
 "C50": "Refuted: the torque uses the wrong mixed integrals of C30; explicit box.",
 "C51": "Closed meshes. Meshes with boundary are not modelled for inertia (uninitialised integrals). Complement: C121.",
 "C52": "Full statement.",
 "C34": "Plane and Lipschitz wave surfaces. Complement: C109.",
 "C35": "Full statement, plus the distance to a horizontal plane.",
 "C53": "Plane (any parameters), exact version without projection, end-to-end Archimedes with the default parameters, Lipschitz wave surfaces with threshold > tolerance (the defaults are equal: open). garbage_collection's renumbering is not modelled.",
 "C54": "Exact force formula. Complement: C122.",
 "C55": "Refuted: translation is applied before rotation; proved when one of them is trivial.",
 "C36": "Any mesh with its borders in the plane z=0, reduction point and density. Complement: C110.",
 "C56": "Closed form of all coefficients. Complement: C146.",
 "C57": "Every clipping function and linear solver. Complement: C123.",
 "C48": "All update sequences, both velocity sources. Rates below the resolution, NED velocities and restarts: split-off property. Complement: C120.",
 "C58": "Value, balance and first order agreement with the exact hydrostatic load. Complement: C124.",
 "C59": "Exact step and convergence (zeta + pi h/T < 1). Complement: C125.",
 "C60": "The optional position correction recorders are not modelled. Complement: C126.",
 "C37": "Regular field and irregular fields of any size (no stretching, no active ramp), pressure under the dispersion relation. Complement: C111.",
 "C38": "Both conventions; null field for all queries. Complement: C112.",
 "C39": "Every model below the switch; selections that are effective. Complement: C144.",
 "C40": "Termination for all inputs, residual and absolute accuracy, exact root. Complement: C113.",
 "C43": "Degrees: all conventions. GetWaveDirections: all units and conventions. Complement: C116.",
 "C61": "All four queries (regular); elevation after Initialize and every step (irregular). Complement: C127.",
 "C62": "Every sea, period and field whose deep-water flag agrees with the sea. Complement: C128.",
 "C41": "Improper integrals; sign, scaling and peaks. Complement: C114.",
 "C42": "Lists of length other than 0 and 3, one and two dimensional, and the uniform overload. Complement: C115.",
 "C44": "Real arithmetic: every function; the two spectra in the given range. Complement: C117.",
 "C63": "Integral one (Wallis), symmetry, maximum; the band search succeeds for natural factors up to 100000. Complement: C129.",
 "C64": "Every history without file ending with Initialize. Complement: C130.",
 "C65": "Equality of the whole query state. Text conversion of numbers by the JSON library is taken as exact. Complement: C131.",
 "C45": "Every line initialised and updated in any way, both conventions, elastic or not: tangent, weight per length, resultant and moment of the end tensions. Complement: C118.",
 "C46": "The matrix is the exact derivative of the residual (directional derivative in every direction), symmetric and positive definite, for every non-vertical tension.",
 "C47": "Setters, getters and the constructor. Complement: C119.",
 "C66": "Uniqueness and accuracy by monotonicity of the residual. Convergence of the Newton loop itself is not claimed. Complement: C132.",
 "C67": "All histories; bounds of the strained length with an explicit error. Complement: C133.",
 "C68": "Proved for reachable bodies and every node, using the wrench reading of C22; the third law is stated when the far end is exactly at the ending node.",
 "C69": "FrUniformField is the only field of the repository; the position given to the field has no effect in it. Complement: C134.",
 "C70": "ITTC excludes Re = 100. Complement: C135.",
 "C71": "'Opposes' is proved for exponents 1 and 2. Complement: C136.",
 "C72": "Level bodies (any heading). The constants of the standard (0.7, 0.9, 0.07, 0.6) are in the statement. Complement: C137.",
 "C73": "Tables whose first angle is exactly 0 or -180 degrees. JSON parsing is not modelled. Complement: C138.",
 "C74": "Level bodies for the value of the force; any attitude for its being horizontal.",
 "C75": "Interp1dLinear is a contract (linear, fails outside the table). Steps longer than the recorder step are outside C75_convolution but inside C75_superposition. The inertia part of the radiation model is not modelled here.",
 "C76": "One body. Complement: C139.",
 "C77": "All masks. Complement: C140.",
 "C78": "Databases of at least two frequencies, time step at most half of the persistence. Complement: C141.",
 "C79": "All sequences of mappings. Complement: C142.",
 "C80": "HDF5 reading is not modelled. Complement: C143.",
 "C81": "Interp1dLinear is a contract (linear, fails outside the table). Sums are written in one order. HDF5 reading is not modelled.",
 "C82": "On the load of C81.",
 "C83": "Full mask and rigid modes; the tables may be anything.",
 "C84": "For non-empty masks and waves with at least one direction.",
 "C85": "Same frequencies and directions. Complement: C149.",
 "C86": "Refuted: the direction in the world is used whatever the heading.",
 "C87": "n from 1 to 6. Complement: C150.",
 "C88": "LookupTable2d is a contract (bilinear, fails outside).",
 "C89": "On the load of C88; steady for regular and irregular fields.",
 "C90": "Refuted twice: the relative direction is not reduced (directions below the heading stop the program), and the force is applied in the axes of the body, not of the equilibrium frame.",
 "C91": "The pressure field is any function; the clipping of the mesh is covered by the mesh properties.",
 "C92": "Refuted for every database with positive frequencies: the null wave field reports the frequency 0, outside of the table.",
 "C93": "Refuted: the amplitudes do not include the ramp.",
 "C94": "Refuted: FrClampFunction's constructor copies the cache of the clamped function. (Split from C01.)",
 "C95": "Refuted: the copy constructor drops m_xOffset. (Split from C03.)",
 "C96": "Refuted: non zero derivative inside the clamped zone, from the copied cache. (Split from C06.)",
 "C97": "Refuted (constant output): the default bounds are inverted infinities. (Split from C07.)",
 "C98": "Right in NWU (partial); refuted in NED: FrFrame::Set(pos,e1,e2,e3,NED) ignores the convention for the axes. (Split from C11.)",
 "C99": "Refuted: the roll is left uninitialised exactly when the x axis points up (C99_undefined_roll). (Split from C14.)",
 "C100": "Refuted: operator*= composes on the left, RotateX..(radians) converts degrees, ProjectToXYPlane drops the wrong components with roll and pitch; the actual meanings are proved. (Split from C16.)",
 "C101": "Refuted: the three methods act in the node's own axes (C101_node_axes_actual proves it). (Split from C17.)",
 "C102": "Refuted: the constructor does not convert the inertia coefficients (right iff Ixy = Ixz = 0), and SetInertiaTensorAtCOG ignores the convention. (Split from C19.)",
 "C103": "Refuted for every force: its path stays registered, and the failing call leaves the force in the list. (Split from C23.)",
 "C104": "Refuted for names containing '/': the second object is then refused. (Split from C24.)",
 "C105": "All three refuted: re-adding after removal throws, Clear keeps log and paths, cable hinges stay. (Split from C27.)",
 "C106": "Refuted: one interpolated value is stored per call. (Split from C28.)",
 "C107": "Refuted: CalcFacePolynomialIntegrals combines the wrong terms. (Split from C30.)",
 "C108": "Refuted: x^2y, y^2x depend on uninitialised variables, x^3, y^3 are wrong. (Split from C31.)",
 "C109": "Refuted: the fallback after 1001 iterations returns the origin. (Split from C34.)",
 "C110": "Refuted: a second ComputeProperties adds radii and area again; the inner rim counts with the wrong sign. (Split from C36.)",
 "C111": "Refuted: the deep-water switch leaks through the bed (bounded by exp(-3)), an active ramp's rate is missing in the acceleration. (Split from C37.)",
 "C112": "Refuted: right only where y sin(direction) = 0 (y is reflected twice); NED pressure has the wrong sign; NED cut-off is reversed. (Split from C38.)",
 "C113": "Refuted for long waves. (Split from C40.)",
 "C114": "Refuted: gamma=81 (only a warning) gives a negative density everywhere. (Split from C41.)",
 "C115": "Refuted: three frequencies or directions read out of range; the widths add up to more than the range; several directions without model. (Split from C42.)",
 "C116": "NWU/goes-to only (partial); refuted otherwise: angles in radians are normalised modulo 360. (Split from C43.)",
 "C117": "Refuted in binary64 (SpecFloat): endless loop on FrTestWaveSpectrum. (Split from C44.)",
 "C118": "Refuted: a neutrally buoyant cable divides by zero, and changed properties do not change the weight until the next Initialize. (Split from C45.)",
 "C119": "Refuted: the maker permutes its three arguments. (Split from C47.)",
 "C120": "Refuted: slow velocities (v^2 <= FLT_EPSILON) are ignored, NED velocities are not converted, ForceInitialize during the simulation restarts the clock. (Split from C48.)",
 "C121": "Refuted: mass = density*volume. (Split from C51.)",
 "C122": "Refuted: the pressure is counted from z=0, the force lacks rho*g*h*waterplane area. (Split from C54.)",
 "C123": "Refuted: offset body, uninitialised first move, submerged body (empty polygon set indexed), iteration counter shared by calls, correction applied about body axes. (Split from C57.)",
 "C124": "Refuted: the maker from a mesh reduces the stiffness at the mesh origin; bow up 90 degrees reads an uninitialised roll. (Split from C58.)",
 "C125": "Refuted: the heading difference across pi is not reduced, Initialize does not reset the clock. (Split from C59.)",
 "C126": "Refuted: m_prevTime is uninitialised. (Split from C60.)",
 "C127": "Refuted. (Split from C61.)",
 "C128": "Refuted: the deep-water flag set by a short period persists. (Split from C62.)",
 "C129": "Refuted: two directions keep less than 20 % of the energy; undefined beyond half a turn for non integer 2s. (Split from C63.)",
 "C130": "Refuted: NONE dereferences null, spectrum after directions, seeded phases overwritten, late mean direction ignored, late frequencies leave phases behind. (Split from C64.)",
 "C131": "Refuted: amplitudes of its own spectrum. (Split from C65.)",
 "C132": "Refuted: silent non-convergence, singular vertical case, short inelastic line. (Split from C66.)",
 "C133": "Refuted: it pays out for the whole elapsed time. (Split from C67.)",
 "C134": "Refuted: GetRelativeVelocityInFrame with NED returns NWU components. (Split from C69.)",
 "C135": "Refuted: the check is on the sign of coefficients, not of the form; ITTC resistance divides by zero at Re = 100 and ignores the current. (Split from C70.)",
 "C136": "Refuted: a cubic term |u| u u loses its sign; velocities of the body origin with a force at the centre of gravity can give positive power. (Split from C71.)",
 "C137": "Refuted: m_xCenter is read without having been set; a capsized body is pushed against the flow. (Split from C72.)",
 "C138": "Refuted: no wrap-around between the last direction and the first unless a row points ahead; rows within 0.1 rad of the bow make the completed half lose a row. (Split from C73.)",
 "C139": "Refuted: with several bodies the speed terms of all of them are added to the force on each (the _fleet_partial theorem says exactly what is computed), and the speed is a norm, so going astern gives the corrections of going ahead. (Split from C76.)",
 "C140": "Refuted: SetMask appends to the list of degrees of freedom, so a mask given again counts them twice and the radiation force doubles. (Split from C77.)",
 "C141": "Refuted: one frequency, or a time step above half of the persistence, divides by zero. (Split from C78.)",
 "C142": "Refuted: the old body still answers with it. (Split from C79.)",
 "C143": "Refuted: kernels given again are appended and never used. (Split from C80.)",
 "C144": "Refuted above the switch (k too large) for Vertical, Extrapol, Delta, HDelta; Vertical and Extrapol (and, for the regular field, all but Wheeler) are not effective when selected. (Split from C39.)",
 "C145": "Refuted: the cache is not invalidated. (Split from C49.)",
 "C146": "Refuted for NED reduction points (the height of the COG is negated) and for a body away from the world origin (the mesh is placed without the horizontal position). (Split from C56.)",
 "C147": "Refuted for every failing Add. (Split from C26.)",
 "C148": "Refuted: the range-for over the vector shortened by Remove is undefined behaviour for every non-empty list. (Split from C25.)",
 "C149": "Refuted: m_Fhdb is computed only when empty, so the old coefficients stay. (Split from C85.)",
 "C150": "Refuted: any single other degree of freedom gets a zero load, because the tables are expanded to six rows and then read by mode number. (Split from C87.)",
 "C151": "The inverse of the matrix library (MatrixMN::Inverse) is a contract: what it returns is the inverse.",
 "C152": "All bodies active. The solver of Chrono that calls these functions is not modelled.",
 "C153": "State places of six components that do not overlap.",
 "C154": "Refuted: the coupled inverse is used only if the vector equals the forces of the body, MultiplyAndAdd reads the vector from its beginning (right for place 0: partial), Build_M has diagonal blocks only.",
 "C155": "Refuted: the inverse is computed by SetupInitial only.",
 "C156": "Refuted: blocks of the inverse of the whole matrix are used, not the inverse of the remaining block.",
 "C157": "Refuted: the matrix of the database is applied to components in world axes.",
 "C158": "Exact arithmetic; the reference direction must not be nearly parallel to the tube (or both perpendicular to the first axis).",
 "C159": "For a turned body the axes are turned twice: see C163. Node acceleration is a parameter.",
 "C160": "All elements on one body.",
 "C161": "Non negative coefficients. Holds also with the axes of C163.",
 "C162": "Each element longer than FLT_EPSILON.",
 "C163": "Refuted: the flow is projected in the body and then in the frame of the node in the world, so the rotation of the body is applied twice.",
 "C164": "Refuted: the flag of the composite is not passed on; that of the elements is not initialised.",
 "C165": "Refuted: the fallback axis is always x, so a tube along x fails.",
 "C166": "Refuted: (1 + ca) multiplies the relative acceleration, so the Froude-Krylov part acts on the acceleration of the body too.",
 "C167": "",
 "C168": "Refuted: an inner composite is initialised before it receives the option.",
 "C169": "Refuted: the quadratic law is applied component by component.",
 "C170": "Contract of the relative coordinates of the Chrono link.",
 "C171": "",
 "C172": "Refuted: the opposite of the other velocity is returned, without the transport by the relative rotation.",
 "C173": "Refuted: the argument is ignored.",
 "C174": "The reaction of the solver is a parameter (on the body of node 1, at node 1).",
 "C175": "Within 0.0003 rad near whole turns, where the axis of the rotation is not computed; exact elsewhere. From a new link at angle 0.",
 "C176": "",
 "C177": "Within 0.0003 rad near 0.",
 "C178": "Refuted: the rest angle is the unsigned angle of the rotation.",
 "C179": "",
 "C180": "",
 "C181": "Refuted: the target is the unsigned angle.",
 "C182": "Refuted: the x axis of the motor is -z of the node, the target is +z.",
 "C183": "Refuted: the force in the node does not follow the convention, so the result has the wrong sign.",
 "C184": "",
 "C185": "Except the prismatic-revolute type: C186.",
 "C186": "Refuted: prismatic-revolute blocks nothing; the type becomes CUSTOM.",
 "C187": "",
 "C188": "Refuted: SetDisabled(false) starts the motor of a broken link; Motorize does not remove the former motor.",
 "C189": "The sign of the distance is that of NWU: C190.",
 "C190": "Refuted for the planes of normal Y and Z.",
 "C191": "The free axis is x in the solver (contract).",
 "C192": "World body fixed at the origin.",
 "C193": "Contract of the interpolation table.",
 "C194": "Refuted: the table ends on the other side of the first height.",
 "C195": "",
 "C196": "Refuted: times with a zero hour, minute or second are refused.",
 "C197": "Refuted: null frame.",
 "C198": "",
 "C199": "",
 "C200": "Refuted: the NED depth is negative.",
 "C201": "Refuted: the depth is 30 again.",
 "C202": "Refuted: the next update ends the program.",
 "C203": "",
 "C204": "",
 "C205": "Refuted: they are stored independently and the kinematic viscosity of air is not initialised.",
 "C206": "",
 "C207": "Integer chrono arithmetic of the library (32 bit seconds) modelled.",
 "C208": "Calendar of the date library: proved against Gregorian rules.",
 "C209": "Refuted: no conversion.",
 "C210": "Zone tables are parameters.",
 "C211": "Refuted.",
 "C212": "Refuted: choosing UTC after the day forgets it.",
 "C213": "",
 "C214": "WGS84 geocentric formulas as contract of GeographicLib.",
 "C215": "",
 "C216": "Reverse of GeographicLib is a parameter.",
 "C217": "Magnetic model is a parameter.",
 "C218": "Refuted: local axes of the point.",
 "C219": "The dynamics and the meshes are parameters.",
 "C220": "Stated as: two dynamics that agree on such systems give the same analysis.",
 "C221": "",
 "C222": "Refuted: the record of the first analysis is never replaced.",
 "C223": "Refuted: they are left asleep, or disabled.",
 "C224": "Refuted: two iterations or fewer always fail; a negative number never ends without success.",
 "C225": "",
 "C226": "Refuted: enabling a broken link or repairing a disabled link starts its motor.",
 "C227": "",
 "C228": "",
 "C229": "The free surface is taken flat around the buoy, as in the code.",
 "C230": "Refuted: it comes from the volume at the previous update, and at the first one from a volume never computed.",
 "C231": "",
 "C232": "",
 "C233": "Refuted: only the centre and the first ray are, the others are at zero.",
 "C234": "Refuted when the step does not divide the side.",
 "C235": "Refuted for an update step given to a grid without mesh.",
 "C236": "Exact arithmetic: with rounding the last element may be split.",
 "C237": "Refuted: one element reads the last of an empty vector.",
 "C238": "",
 "C239": "Refuted after RemoveAssets.",
 "C240": "",
 "C241": "Refuted: buoy and buoy1.",
 "C242": "",
 "C243": "Refuted: uncaught exception, reading beyond the end, or silent cut.",
 "C244": "For jacobians that differ from the forces loaded into the bodies (see C245).",
 "C245": "Refuted: a third body does not feel the impulses, and a jacobian equal to the loaded forces counts the coupling twice.",
 "C246": "",
 "C247": "Refuted: straight, but the last node is short of the ending node by the whole elongation.",
 "C248": "",
 "C249": "True of the tension, refuted for the position, read outside of the mesh.",
 "C250": "Refuted: they are at least, not at most, that long, and a target longer than the cable leaves no element.",
 "C251": "",
 "C252": "The scale of a cable exactly as long as its span is empty (refuted).",
 "C253": "Refuted for the nodes.",
 "C254": "",
 "C255": "True of the first cable; the second one throws (refuted): the name of the line stays taken.",
 "C256": "Refuted: no effect.",
 "C257": "After a query, added terms are seen at the abscissas not yet asked for (see C259).",
 "C258": "Refuted: zero times infinity for a linear term at zero.",
 "C259": "Refuted at the abscissa of the last query: the cached value stays.",
 "C260": "When no ancestor is a file.",
 "C261": "Refuted for a file of that name; below a file the program exits.",
 "C262": "Doubles in a double dataset, integers in an integer dataset.",
 "C263": "True of a list; refuted with two columns: each vector also contains the former columns.",
 "C264": "Refuted: on integers the result is not defined, on doubles each number becomes that many zeros.",
 "C265": "It is also true of datasets.",
 "C266": "Refuted: the error code of HDF5 is taken for true.",
 "C267": "Files found.",
 "C268": "Refuted: the file replaced stays open; without file, or after a file that is not found, the destructor follows a null pointer.",
 "C269": "JSON text is abstracted as a tree.",
 "C270": "Refuted: the constructor goes on to parse a file that is not open, and throws.",
 "C271": "Contracts of spdlog.",
 "C272": "Refuted: the logger has the same name for all, the second construction throws.",
 "C273": "Refuted: the creation of a system sets it back; true without creation nor destruction in between.",
 "C274": "True without braces in type and name; refuted with: the name is part of the format, and the message is lost."
}