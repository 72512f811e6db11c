{"id": "C01", "title": "Function queries are history independent", "statement": "For every function object assembled through the public operators and the function library, in which clamps were applied to functions not queried before, and after any sequence of Get_y / Get_y_dx / Get_y_dxdx queries at arbitrary abscissae, each query returns the same answer as a fresh object of the same expression, namely the mathematical value of the assembled expression (asinh excepted, see C04); the internal caching is never observable. Values are right after every history whatsoever if no clamp is applied directly to a clamp.", "quantifier": "every expression tree, every finite history of queries, every abscissa", "why_tests_cant": "The caches make the result depend on the whole query history and on the tree shape; tests only try a few histories on a few trees.", "anchors": ["src/frydom/core/math/functions/FrFunctionBase.cpp: Get_y, Get_y_dx, Get_y_dxdx, Eval of the operators", "src/frydom/core/math/functions/FrFunctionBase.h: IsEval, EvalFunctions", "src/frydom/core/math/functions/lib/*.cpp"]}
{"id": "C02", "title": "Reported derivatives are the true derivatives", "statement": "At every abscissa where the assembled expression (without asinh, see C04) is regular (no division by zero, arguments inside the smooth domain of each library function), Get_y_dx is the derivative of x -> Get_y(x) and Get_y_dxdx is the derivative of x -> Get_y_dx(x).", "quantifier": "every expression tree over the library, every regular abscissa", "why_tests_cant": "A chain/product/quotient rule slip only shows at abscissae and combinations that the finite-difference tests do not sample.", "anchors": ["src/frydom/core/math/functions/FrFunctionBase.cpp: FrAddFunction, FrSubFunction, FrMultiplyFunction, FrDivideFunction, FrCompositeFunction", "src/frydom/core/math/functions/lib/FrTrigonometricFunctions.cpp", "src/frydom/core/math/functions/lib/FrHyperbolicTrigonometricFunctions.cpp", "src/frydom/core/math/functions/lib/FrPowFunction.cpp"]}
{"id": "C03", "title": "X offset survives use in expressions", "statement": "After SetXOffset(a) on a function without offset, each query at x returns what the function answered at x - a before.", "quantifier": "every function, every offset, every enclosing expression", "why_tests_cant": "Needs every expression context; the copy made by an operator is the place where state can be lost.", "anchors": ["src/frydom/core/math/functions/FrFunctionBase.cpp: SetXOffset, copy constructor, operator+"]}
{"id": "C04", "title": "asinh is the inverse hyperbolic sine", "statement": "asinh(f) evaluates to the real y with sinh(y) = f(x), for every x.", "quantifier": "every inner function, every abscissa", "why_tests_cant": "Universal over reals; includes negative and small arguments where the evaluation can be undefined.", "anchors": ["src/frydom/core/math/functions/lib/FrHyperbolicTrigonometricFunctions.cpp: FrASinHFunction::Eval"]}
{"id": "C05", "title": "Compound assignment agrees with the binary operator", "statement": "After f += g (resp. -=, *=, /=), f evaluates to f(x) + g(x) (resp. -, *, /) with the former f, for every kind of function object f.", "quantifier": "every function object f and g, every abscissa", "why_tests_cant": "Must hold for every dynamic type of f, including leaf functions without inner function.", "anchors": ["src/frydom/core/math/functions/FrFunctionBase.cpp: operator+=, operator-=, operator*=, operator/="]}
{"id": "C06", "title": "Clamping holds the function constant outside its bound", "statement": "For a function not queried before, clamp_before(f,a) equals f(a) with zero derivatives for x<=a and f for x>=a ; clamp_after(f,b) equals f for x<=b and f(b) with zero derivatives for x>=b; repeated queries in any order give the same answers.", "quantifier": "every inner function, every bound, every query history", "why_tests_cant": "Cache interaction between the clamp and the clamped function depends on the query history.", "anchors": ["src/frydom/core/math/functions/lib/FrClampFunction.cpp: FrClampAfterFunction::Eval, FrClampBeforeFunction::Eval"]}
{"id": "C07", "title": "Saturation bounds the output and is transparent inside the bounds", "statement": "saturate(f,ymin,ymax) with ymin <= ymax is max(ymin,min(ymax,f)), has the derivatives of f strictly inside the bounds and zero derivatives strictly outside.", "quantifier": "every inner function, every bound, every abscissa", "why_tests_cant": "Universal over values; the one-sided variants rely on default bounds that no example with both bounds exercises.", "anchors": ["src/frydom/core/math/functions/lib/FrSaturateFunction.cpp", "src/frydom/core/math/functions/lib/FrSaturateFunction.h"]}
{"id": "C08", "title": "Ramps start at y0, end at y1 and stay between them", "statement": "A linear or cosine ramp set by two points (x0,y0),(x1,y1) with x0<x1 equals y0 for x<=x0, y1 for x>=x1, is continuous, monotone between y0 and y1 and stays in [min(y0,y1),max(y0,y1)]; the cosine ramp is moreover continuously differentiable.", "quantifier": "all end points with x0<x1, all abscissae", "why_tests_cant": "Continuity, monotonicity and bounds are statements over all reals.", "anchors": ["src/frydom/core/math/functions/ramp/FrLinearRampFunction.cpp", "src/frydom/core/math/functions/ramp/FrCosRampFunction.cpp"]}
{"id": "C09", "title": "Linear function setters take effect", "statement": "After SetSlope / SetIntercept (and the two-point setters) a linear function evaluates with the new coefficients.", "quantifier": "every coefficient pair, every abscissa", "why_tests_cant": "Relates every setter call sequence to every later evaluation.", "anchors": ["src/frydom/core/math/functions/lib/FrLinearFunction.cpp"]}
{"id": "C10", "title": "Hyperbolic-tangent ramp does not depend on earlier queries", "statement": "The value reported by a tanh ramp at an abscissa depends only on its parameters and that abscissa.", "quantifier": "every parameter set, every query history", "why_tests_cant": "History dependence needs specific pairs of successive queries.", "anchors": ["src/frydom/core/math/functions/ramp/FrTanhRampFunction.cpp: Eval"]}
{"id": "C11", "title": "Frame convention change is an isometric involution", "statement": "Changing a vector from NWU to NED and back gives the vector back; the change preserves dot products and norms and commutes with cross products; setting a position, quaternion elements, a torsor point or a rotation in one convention and reading in the same convention returns the same components, and reading in the other returns the converted ones.", "quantifier": "every vector, both conventions, every setter/getter pair of positions, frames, forces and velocities modelled", "why_tests_cant": "An algebraic law over all vectors.", "anchors": ["src/frydom/core/math/FrVector.h: SwapFrameConvention", "src/frydom/core/common/FrFrame.cpp: SetPosition, GetPosition"]}
{"id": "C12", "title": "Moment transport leaves the torsor unchanged", "statement": "Setting a torsor at a point and reading it at another follows the rigid transport rule; reading back at the original point returns the original moment; successive transports compose; the power of a wrench against a twist does not depend on the reduction point.", "quantifier": "every resultant, moment and pair of points", "why_tests_cant": "Algebraic law over all vectors.", "anchors": ["src/frydom/core/math/Torsor.cpp: Set, TransportMomentAtPoint"]}
{"id": "C13", "title": "Rotations act as rigid rotations", "statement": "Rotating any vector by a unit quaternion preserves dot and cross products; the rotation of a product is the composition of the rotations; the inverse undoes the rotation; the reported axes and rotation matrix describe the same rotation and the matrix is orthogonal with determinant one.", "quantifier": "every unit quaternion, every vector", "why_tests_cant": "Algebraic laws over a continuum.", "anchors": ["src/frydom/core/common/FrRotation.cpp", "src/frydom/core/common/FrRotation.h: Rotate, operator*"]}
{"id": "C14", "title": "Cardan angles round trip", "statement": "Building a rotation from Cardan angles (phi,theta,psi) gives the rotation Rz(psi)Ry(theta)Rx(phi), and reading the Cardan angles back returns the same angles whenever |theta|<pi/2 and phi,psi are in (-pi,pi] (heading in [-pi,pi) in NED); whenever all three reported angles are defined values they describe the rotation they were read from.", "quantifier": "all angles", "why_tests_cant": "Continuum plus a singular set that sampling misses.", "anchors": ["src/frydom/core/math/FrEulerAngles.inl: eul2quat_xyz, eul2mat_xyz, mat2eul_xyz", "src/frydom/core/common/FrRotation.cpp: SetCardanAngles_RADIANS, GetCardanAngles_RADIANS"]}
{"id": "C15", "title": "Frames form a group and move points rigidly", "statement": "Frame composition is associative with the identity frame neutral; a frame composed with its inverse is the identity; a point mapped to the parent and back is unchanged; the point map of a composition is the composition of the point maps; distances are preserved; the relative-frame queries F.GetThisFrameRelativeTransform(G) and F.GetOtherFrameRelativeTransform(G) compose back to F and G.", "quantifier": "all frames and points", "why_tests_cant": "Algebraic laws over a continuum.", "anchors": ["src/frydom/core/common/FrFrame.cpp: operator*, Inverse, GetInverse, GetThisFrameRelativeTransform_WRT_OtherFrame, GetOtherFrameRelativeTransform_WRT_ThisFrame, GetPointPositionInParent, GetPointPositionInFrame"]}
{"id": "C16", "title": "In-place frame and rotation operations agree with their documented meaning", "statement": "Every sequence of in-place operations on a frame (set position, rotation or identity, translations in parent axes, rotations in own or parent axes by a quaternion, invert, ...) moves points as documented and keeps the rotation a unit quaternion.", "quantifier": "all frames, all angles", "why_tests_cant": "Universal over a continuum; most examples use identity frames on which wrong composition order is invisible.", "anchors": ["src/frydom/core/common/FrFrame.cpp: operator*=, RotateInFrame, ProjectToXYPlane"]}
{"id": "C17", "title": "Nodes stay rigidly attached to their body", "statement": "A node placed by its frame in the body reference frame reports the same frame in body whatever rigid motion or centre-of-gravity offset the body has; its world frame is the body frame composed with it; the placing operations of a node mean what they say for every sequence of calls.", "quantifier": "all bodies, COG offsets, node frames and motions", "why_tests_cant": "Continuum of poses and COG offsets.", "anchors": ["src/frydom/core/common/FrNode.cpp"]}
{"id": "C18", "title": "Inertia tensors add as mass distributions", "statement": "The inertia tensor of a body described at any frame, of an assembly of parts at any relative frames, and its report at any frame is the tensor of the union of the underlying mass distributions (mass, centre of gravity, six inertia coefficients).", "quantifier": "every finite distribution of point masses, every frame, every number of parts", "why_tests_cant": "Parallel-axis and rotation terms must be right for all poses and any number of parts.", "anchors": ["src/frydom/core/body/FrInertiaTensor.cpp", "src/frydom/core/body/FrAssembly.cpp: GetInertiaTensor"]}
{"id": "C19", "title": "Inertia data given in NED denotes the same body as in NWU", "statement": "Constructing or resetting an inertia tensor at a frame from coefficients expressed in NED gives the same mass properties as from the converted coefficients in NWU, and every reader converts in the same way.", "quantifier": "every set of coefficients and frame", "why_tests_cant": "Sign conventions are only visible for nonzero products of inertia.", "anchors": ["src/frydom/core/body/FrInertiaTensor.cpp: FrInertiaTensor constructors, SetInertiaTensorAtCOG"]}
{"id": "C20", "title": "Body pose operations move the body rigidly", "statement": "After SetPosition, SetRotation, SetFrame, SetPositionOfBodyPoint, TranslateInWorld/InBody, Rotate and RotateAroundPoint the body reference frame and the world position of every body point are what the rigid motion prescribes: the set pose is read back, a translated point moves by the translation, the pivot of a rotation does not move, and this for every centre of gravity offset.", "quantifier": "every body pose, COG offset, motion and body point", "why_tests_cant": "Continuum of states; COG offsets interact with every setter.", "anchors": ["src/frydom/core/body/FrBody.cpp: SetPosition, SetRotation, SetFrame, SetPositionOfBodyPoint, TranslateInWorld, TranslateInBody, Rotate, RotateAroundPointInWorld, RotateAroundPointInBody"]}
{"id": "C21", "title": "Velocities form a rigid velocity field", "statement": "Setting the generalized velocity at a point and reading the velocity at that point returns the set value, and the velocities read at any two body points differ by omega x r; reading in world or body axes are rotations of one another.", "quantifier": "every pose, velocity and pair of points", "why_tests_cant": "Continuum of states.", "anchors": ["src/frydom/core/body/FrBody.cpp: SetGeneralizedVelocityInWorldAtPointInBody, GetVelocityInWorldAtPointInBody, GetVelocityInBodyAtPointInBody"]}
{"id": "C22", "title": "A force set at a point is the same wrench whatever getter reads it", "statement": "Setting force and torque at any point, in world or body axes, in either frame convention, then reading force and torque at any point gives the statically equivalent wrench; with limits enabled the reported norms never exceed the limits and directions are kept; an inactive force contributes zero.", "quantifier": "all forces, torques, points, poses, conventions, limits", "why_tests_cant": "Continuum of inputs and all setter/getter combinations.", "anchors": ["src/frydom/core/force/FrForce.cpp"]}
{"id": "C23", "title": "Adding and removing external forces keeps the force list consistent", "statement": "After any sequence of AddExternalForce/RemoveExternalForce/RemoveAllForces and node additions and removals that does not report an error, the body carries exactly the forces and nodes added and not removed, and the log holds exactly the corresponding objects.", "quantifier": "every operation sequence", "why_tests_cant": "Histories are unbounded; errors in the middle of an operation leave intermediate states.", "anchors": ["src/frydom/core/body/FrBody.cpp: AddExternalForce, RemoveExternalForce, RemoveAllForces", "src/frydom/logging/FrPathManager.h: RegisterTreeNode"]}
{"id": "C24", "title": "Log paths are unique", "statement": "Two distinct objects that were both registered successfully never share a log path; the path of an object is the path of its parent followed by its own label; registering an object with an already used path reports an error; for names without '/' the path determines class and names.", "quantifier": "every registration sequence, every set of names", "why_tests_cant": "Unbounded histories and names.", "anchors": ["src/frydom/logging/FrPathManager.h: GetPath, RegisterTreeNode", "src/frydom/logging/FrPathPolicies.cpp"]}
{"id": "C25", "title": "RemoveAll empties the system", "statement": "Removing the objects of a list of the system one by one (from a copy of the list) succeeds and empties it; RemoveAll on an empty list does nothing.", "quantifier": "every list content", "why_tests_cant": "The defect depends on iterator invalidation, i.e. on the number of elements.", "anchors": ["src/frydom/core/FrOffshoreSystem.cpp: RemoveAllBodies, RemoveAllLinks, RemoveAllConstraints, RemoveAllActuators"]}
{"id": "C26", "title": "A failed Add leaves the system unchanged", "statement": "If adding an object to the system reports an error, a path was already in use, and log, paths, forces and nodes are unchanged; objects of unknown classes are ignored.", "quantifier": "every system state, every object", "why_tests_cant": "Needs the error path in every state.", "anchors": ["src/frydom/core/FrOffshoreSystem.cpp: Add, AddBody"]}
{"id": "C27", "title": "System registries reflect the add/remove history", "statement": "After any sequence of Add and Remove of bodies, links, constraints and actuators without error, each registry, the list of the solver back end and the log registry contain exactly the objects added and not removed, each once; removing an absent object changes nothing.", "quantifier": "every operation sequence", "why_tests_cant": "Unbounded histories.", "anchors": ["src/frydom/core/FrOffshoreSystem.cpp: Add, Remove, AddBody, RemoveBody, AddLink, RemoveLink", "src/frydom/logging/FrLogManager.cpp: Add, Remove, Has"]}
{"id": "C28", "title": "Time recorder holds the uniformly resampled recent history", "statement": "When a recorder of step dt records a signal with time increments not larger than dt, the stored value at age GetTime()[i] is the piecewise-linear interpolation of the recorded samples at that age, the number of samples never exceeds persistence/dt and the ages are 0, delta, delta+dt, delta+2dt, ...", "quantifier": "every recording sequence with increments in (0, dt]", "why_tests_cant": "Depends on the whole recording history.", "anchors": ["src/frydom/utils/FrRecorder.h: FrTimeRecorder::Record, GetData, GetTime, Interpolate"]}
{"id": "C29", "title": "Convolution quadrature is the trapezoidal rule", "statement": "The quadrature used for the radiation convolution over any non-uniform abscissae is the composite trapezoidal rule: it integrates every piecewise-linear signal exactly, is linear and monotone in the ordinates, and is additive over adjacent intervals.", "quantifier": "every abscissa list and ordinate list of any length", "why_tests_cant": "Any length, any spacing.", "anchors": ["src/frydom/hydrodynamics/seakeeping/linear/radiation/FrRadiationModel.cpp: TrapzLoc"]}
{"id": "C30", "title": "Mesh face integrals are the true surface integrals", "statement": "After every history of mesh operations, for every triangle the polynomial integrals stored on a mesh face, mixed monomials YZ, XZ, XY excepted, equal the surface integrals of the monomials over the triangle, and the stored normal is the unit vector along the vector area.", "quantifier": "every triangle, every monomial", "why_tests_cant": "Polynomial identity over nine real coordinates.", "anchors": ["src/frydom/mesh/FrMesh.cpp: CalcFacePolynomialIntegrals"]}
{"id": "C31", "title": "Polygon surface integrals are the true area integrals", "statement": "For every closed planar polygon, each polynomial integral of degree at most two equals the integral over the polygon (signed triangle fan), whatever the fan apex, the number of vertices and the frame convention; the reported area is that of the polygon and planar closed lists of vertices are accepted.", "quantifier": "every polygon with any number of vertices, every monomial", "why_tests_cant": "Any number of vertices; continuum of coordinates.", "anchors": ["src/frydom/mesh/FrPolygon.cpp: ComputeSurfacePolynomialIntegrals"]}
{"id": "C32", "title": "Volume of a watertight mesh", "statement": "For every watertight triangulated mesh GetVolume equals the sum of signed tetrahedra volumes, is unchanged by translating or rotating the mesh, and equals Lx*Ly*Lz for CreateBox; the centre of gravity moves with the mesh.", "quantifier": "every closed triangle mesh, every rigid motion", "why_tests_cant": "Any number of faces; continuum of positions.", "anchors": ["src/frydom/mesh/FrMesh.cpp: GetVolume, GetCOG, Translate, Rotate, CreateBox"]}
{"id": "C33", "title": "Archimedes' principle", "statement": "For every mesh whose wetted faces together with the flat waterplane z=0 form a watertight surface, the nonlinear hydrostatic force is vertical, upward and equals rho*g*volume.", "quantifier": "every watertight hull clipped at the plane z=0", "why_tests_cant": "Any number of faces.", "anchors": ["src/frydom/hydrodynamics/hydrostatic/FrNonlinearHydrostaticForce.cpp: GetHydrostaticForceInWorld"]}
{"id": "C34", "title": "Clipping puts new vertices on the surface", "statement": "The intersection of an edge with the clipping plane lies on the plane and on the edge when the end points lie on opposite sides; for the wave surface the bisection returns a point of the edge within the tolerance of the surface, and does so for every Lipschitz free surface.", "quantifier": "every crossing edge, every plane, every Lipschitz wave surface", "why_tests_cant": "Continuum of inputs; loop of up to 1001 iterations with a silent fallback.", "anchors": ["src/frydom/mesh/FrMeshClipper.cpp: FrClippingPlane::GetIntersection, FrClippingWaveSurface::GetIntersection"]}
{"id": "C35", "title": "Vertex and face classification is exact", "statement": "Every vertex is classified on/above/under according to its distance and the threshold, exclusively; every triangle gets the class given by the numbers of vertices above, on and under.", "quantifier": "every distance, every triple of vertex classes", "why_tests_cant": "Universal over distances and thresholds.", "anchors": ["src/frydom/mesh/FrMeshClipper.cpp: ClassifyVertex, ClassifyFace"]}
{"id": "C36", "title": "Hydrostatic properties", "statement": "The hydrostatic stiffness coefficients are those of the waterplane about the reduction point (parallel axis rule), the metacentric heights satisfy K44 = rho g V GMt and K55 = rho g V GMl, lengths and areas are those of the hull, and the matrix is the derivative of the hydrostatic load.", "quantifier": "every waterplane, volume, reduction point and number of calls", "why_tests_cant": "Continuum of inputs and repeated calls.", "anchors": ["src/frydom/hydrodynamics/hydrostatic/FrHydrostaticsProperties.cpp: CalcHydrostaticProperties"]}
{"id": "C37", "title": "Airy kinematics satisfy the linear wave equations", "statement": "Without stretching and outside of a ramp, in NWU, for regular and irregular wave fields the velocity is divergence free and irrotational, the acceleration is the time derivative of the velocity, the vertical velocity at z=0 is the time derivative of the elevation, and the dynamic pressure balances the acceleration when the wave numbers satisfy the dispersion relation; in finite depth the vertical velocity vanishes at the bed as long as the finite depth formula is used.", "quantifier": "all positions, times, wave parameters, any number of frequencies and directions", "why_tests_cant": "Field identities over a continuum.", "anchors": ["src/frydom/environment/ocean/freeSurface/waves/airy/FrAiryRegularWaveField.cpp", "src/frydom/environment/ocean/freeSurface/waves/airy/FrAiryIrregularWaveField.cpp", "src/frydom/environment/ocean/freeSurface/waves/FrKinematicStretching.cpp"]}
{"id": "C38", "title": "Wave queries are frame-convention consistent", "statement": "Elevation queried in NED at the NED coordinates of a point is the conversion of the NWU answer at that point, for regular, irregular and null wave fields; in NWU the kinematics of points above the free surface are cut off.", "quantifier": "all positions, times, waves", "why_tests_cant": "Only visible off the symmetry plane.", "anchors": ["src/frydom/environment/ocean/freeSurface/waves/airy/FrAiryRegularWaveField.cpp: GetComplexElevation, GetComplexVelocity, GetPressure"]}
{"id": "C39", "title": "Stretching models: derivative and continuity", "statement": "EvalDZ of every kinematic stretching model is the vertical derivative of Eval below the switch level; Wheeler maps the instantaneous surface to the mean surface and keeps the sea bed; selecting no stretching or Wheeler on a regular field, and any model but vertical and extrapolation on an irregular field, makes the profile of that model effective.", "quantifier": "all elevations, wave numbers, depths, models", "why_tests_cant": "Continuum, plus all selector values.", "anchors": ["src/frydom/environment/ocean/freeSurface/waves/FrKinematicStretching.cpp", "src/frydom/environment/ocean/freeSurface/waves/airy/FrAiryRegularWaveField.cpp: SetStretching"]}
{"id": "C40", "title": "Dispersion relation solver", "statement": "The solver returns a wave number whose dispersion residual is below the tolerance, and this determines the wave number up to a computable error; for non-positive depth it returns the deep water value.", "quantifier": "all frequencies, depths, gravities", "why_tests_cant": "Newton loop without iteration bound over a continuum.", "anchors": ["src/frydom/environment/ocean/freeSurface/waves/FrWaveDispersionRelation.cpp: SolveWaveDispersionRelation"]}
{"id": "C41", "title": "Wave spectra carry the prescribed energy", "statement": "The Pierson-Moskowitz spectrum and the JONSWAP spectrum with gamma=1 have zero-order moment Hs^2/16 exactly; spectra are nonnegative for the documented range 1..10 of gamma, scale with Hs^2 and peak at the peak frequency.", "quantifier": "all Hs, Tp, frequencies", "why_tests_cant": "Improper integral over a continuum.", "anchors": ["src/frydom/environment/ocean/freeSurface/waves/FrWaveSpectrum.cpp: FrPiersonMoskowitzWaveSpectrum::Eval, FrJonswapWaveSpectrum::Eval"]}
{"id": "C42", "title": "Discretised wave amplitudes match the spectrum", "statement": "For every list of frequencies and of directions of length other than 0 and 3, there is one amplitude per component and half its square is the spectral density times the widths of its bands (half the distance between neighbours, the whole end interval at both ends); with a directional model the energy is shared among the directions.", "quantifier": "every frequency list of every length", "why_tests_cant": "Depends on the list length.", "anchors": ["src/frydom/environment/ocean/freeSurface/waves/FrWaveSpectrum.cpp: vectorDiscretization, GetWaveAmplitudes"]}
{"id": "C43", "title": "Wave direction set/get round trip", "statement": "Setting the wave direction as an angle in degrees in any frame and direction convention and reading it back in the same conventions gives the same direction; the list of directions agrees.", "quantifier": "all angles, units and conventions", "why_tests_cant": "All combinations of conventions over a continuum of angles.", "anchors": ["src/frydom/environment/ocean/freeSurface/waves/airy/FrAiryRegularWaveField.cpp: SetDirection, GetDirectionAngle, GetDirection"]}
{"id": "C44", "title": "Frequency bandwidth search terminates with a threshold crossing", "statement": "Computed in the real numbers, the bisection used for the bandwidth always terminates: it returns a frequency inside the bracket where the spectrum is within 1e-10 of the threshold, or reports non convergence; it succeeds for every JONSWAP and Pierson-Moskowitz sea with Hs <= 30 m and 3 s <= Tp <= 180 s.", "quantifier": "every spectrum function and bracket", "why_tests_cant": "Unbounded loop over arbitrary functions.", "anchors": ["src/frydom/environment/ocean/freeSurface/waves/FrWaveSpectrum.cpp: dichotomySearch"]}
{"id": "C45", "title": "Catenary line satisfies the cable equilibrium equations", "statement": "Along a catenary line the tangent of the reported node positions is the tension direction plus the elastic strain T/EA, the tension varies by the submerged weight, and the two end tensions balance the total submerged weight.", "quantifier": "all tensions, lengths, weights, stiffnesses", "why_tests_cant": "Differential identity over a continuum.", "anchors": ["src/frydom/cable/FrCatenaryLine.cpp: GetTension, GetUnstrainedChord, GetElasticIncrement, GetNodePositionInWorld"]}
{"id": "C46", "title": "Catenary Newton Jacobian is the true Jacobian", "statement": "The matrix used by the catenary solver is the derivative of the residual with respect to the starting tension, and is symmetric.", "quantifier": "all tensions with the line not vertical", "why_tests_cant": "Nine partial derivatives over a continuum.", "anchors": ["src/frydom/cable/FrCatenaryLine.cpp: analytical_jacobian, get_residual"]}
{"id": "C47", "title": "Cable properties set/get", "statement": "Each property setter is read back by its getter (diameter, section, EA, density), the getters are consistent with each other, and the constructor stores its arguments.", "quantifier": "all positive property values", "why_tests_cant": "Order and permutation of arguments are invisible on equal values.", "anchors": ["src/frydom/cable/FrCable.cpp: FrCableProperties, make_cable_properties"]}
{"id": "C48", "title": "Equilibrium frame moves at its prescribed velocity", "statement": "After any sequence of updates at increasing times, an equilibrium frame set with a constant velocity in NWU and a yaw rate, each above the resolution of the update, is at p0 + v*t with heading psi0 + w*t, independently of the update times; the velocities are read back, in the world and in the frame; perturbation readings are the motion of the body seen from the frame.", "quantifier": "every update sequence, velocity, convention", "why_tests_cant": "Path independence over all update sequences.", "anchors": ["src/frydom/hydrodynamics/FrEquilibriumFrame.cpp: Compute, SetVelocityInWorld, SetVelocityInFrame, GetFrameVelocityInFrame"]}
{"id": "C49", "title": "Reconfiguring a function object takes effect", "statement": "After Set on a power function, SetByTwoPoints on a ramp or Set on a clamp, queries at every abscissa other than the last one queried answer with the new parameters.", "quantifier": "every parameter, every query history, every abscissa", "why_tests_cant": "the failure only appears when the next query hits the abscissa of the last query before the reconfiguration", "anchors": ["src/frydom/core/math/functions/lib/FrPowFunction.cpp:FrPowFunction::Set", "src/frydom/core/math/functions/ramp/FrLinearRampFunction.cpp:SetByTwoPoints", "src/frydom/core/math/functions/ramp/FrCosRampFunction.cpp:SetByTwoPoints"]}
{"id": "C50", "title": "Hydrostatic torque on a wave-clipped hull", "statement": "The nonlinear hydrostatic torque equals the moment of the hydrostatic pressure over the wetted faces, so it vanishes for a closed submerged body whose centre lies below the reference point.", "quantifier": "every mesh, density, gravity", "why_tests_cant": "Any number of faces; symmetric test bodies hide wrong mixed integrals.", "anchors": ["src/frydom/hydrodynamics/hydrostatic/FrNonlinearHydrostaticForce.cpp: GetHydrostaticTorqueInBody"]}
{"id": "C51", "title": "Inertia tensors computed from meshes", "statement": "For every closed mesh the plain inertia tensor is that of the homogeneous solid (mass, centre, moments and products of inertia as volume integrals).", "quantifier": "every closed mesh, density, thickness", "why_tests_cant": "Any number of faces.", "anchors": ["src/frydom/mesh/FrMesh.cpp: GetPlainInertiaTensor, GetShellInertiaTensor"]}
{"id": "C52", "title": "Mesh answers do not depend on the history", "statement": "Volume, centre, area, boundary polygons and surface integrals of a mesh depend only on its current vertices and faces, whatever loads, motions and queries happened before; the bounding box contains every vertex and is tight on all six sides.", "quantifier": "every sequence of mesh operations", "why_tests_cant": "Stale caches only show for particular sequences of operations.", "anchors": ["src/frydom/mesh/FrMesh.cpp: UpdateAllProperties, Translate, Rotate, GetBoundaryPolygonSet, GetBoundingBox"]}
{"id": "C53", "title": "Clipping keeps exactly the wetted surface", "statement": "Clipping a triangle mesh by a plane, or by a wave surface with a threshold larger than the tolerance of the bisection, terminates, leaves no vertex more than the threshold above the surface, and leaves a closed mesh with borders only along the surface, so that a lid on the surface makes it watertight; with projection disabled the result covers exactly the part of the mesh under the plane and volumes and areas of kept and removed parts add up. The hydrostatic force computed from the plane-clipped mesh of any closed body is Archimedes' force.", "quantifier": "every mesh, plane, Lipschitz wave surface, threshold, projection ratio, order of OpenMesh circulators", "why_tests_cant": "Any mesh, any crossing configuration, faces created while iterating.", "anchors": ["src/frydom/mesh/FrMeshClipper.cpp: Apply, Clip, ProcessFace, HasProjection, ProcessHalfEdge, InsertIntersectionVertex, ApplyFaceDeletion", "src/frydom/mesh/FrHydroMesh.cpp: Compute"]}
{"id": "C54", "title": "Hydrostatic force with a tide", "statement": "With a tide height h the nonlinear hydrostatic force is the pressure rho*g*z, counted from z = 0, over the hull below the raised surface (exact formula).", "quantifier": "every closed mesh, tide height, density, gravity", "why_tests_cant": "Any mesh and any tide; tests run at zero tide.", "anchors": ["src/frydom/mesh/FrHydroMesh.cpp: Compute", "src/frydom/hydrodynamics/hydrostatic/FrNonlinearHydrostaticForce.cpp: GetHydrostaticForceInWorld"]}
{"id": "C55", "title": "Mesh offset is the pose of the mesh in the body", "statement": "Importing a mesh with an offset frame places every mesh point p at offset position + offset rotation applied to p.", "quantifier": "every mesh, every offset frame", "why_tests_cant": "Any rotation combined with any translation.", "anchors": ["src/frydom/mesh/FrHydroMesh.cpp: ImportMesh"]}
{"id": "C56", "title": "Stiffness matrix reported by the equilibrium solver", "statement": "The hydrostatic stiffness matrix asked from the equilibrium solver about a point given in world coordinates has the waterplane coefficients of the mesh it uses about the horizontal position of that point and its volume, and the height of the centre of gravity converted like the point (for a body above the origin and NWU: the matrix about the point).", "quantifier": "every body position, mesh, reduction point, frame convention", "why_tests_cant": "Continuum of positions and points; tests place the body at the origin.", "anchors": ["src/frydom/hydrodynamics/hydrostatic/FrHydroStaticEquilibrium.cpp: GetHydrostaticMatrix, GetHydrostaticMatrixAtCOG"]}
{"id": "C57", "title": "Hydrostatic equilibrium solver", "statement": "The equilibrium solver ends after at most the allowed number of iterations; when it reports convergence weight and buoyancy balance within the tolerance (vertical force and moments about the axes of the frame of the mesh it uses); a body already in balance is left in place; the body is only moved vertically and rotated, by at most the relaxation per iteration.", "quantifier": "every body, mesh, clipping function, linear solver, tolerance, number of iterations", "why_tests_cant": "Unbounded iteration histories and arbitrary clipping functions.", "anchors": ["src/frydom/hydrodynamics/hydrostatic/FrHydroStaticEquilibrium.cpp: SolveDisplacement, SolveEquilibrium"]}
{"id": "C58", "title": "Linear hydrostatic force", "statement": "The linear hydrostatic force balances the weight exactly at the equilibrium pose, depends only on heave, roll and pitch relative to the equilibrium frame (not on drift, heading or where the frame is), and with the stiffness of the hull at the centre of gravity it equals, to first order, the load of the water pressure and the weight.", "quantifier": "every pose of the body and of the frame, every hull mesh, stiffness, mass", "why_tests_cant": "Continuum of poses and a derivative identity over all meshes.", "anchors": ["src/frydom/hydrodynamics/hydrostatic/FrLinearHydrostaticForce.cpp: Compute, make_linear_hydrostatic_force", "src/frydom/hydrodynamics/FrEquilibriumFrame.cpp: GetPerturbationFrame"]}
{"id": "C59", "title": "Spring-damping equilibrium frame follows the body", "statement": "While the headings stay in (-pi, pi], each update moves the frame like a damped spring of the given cut-off time and damping ratio attached to the body, horizontally and in heading; beside a body at rest it converges to the vertical of the body node and to its heading for every stable step and small enough initial heading error; height is never changed.", "quantifier": "every body motion, update times, step size, cut-off time, damping ratio, heading", "why_tests_cant": "Convergence over unbounded numbers of steps for all parameters.", "anchors": ["src/frydom/hydrodynamics/FrEquilibriumFrame.cpp: FrEqFrameSpringDamping::Compute, SetSpringDamping"]}
{"id": "C60", "title": "Mean-motion equilibrium frame", "statement": "With a body at constant velocity and yaw rate, the mean-motion frame without position correction moves with the body from the time its clock holds at creation, whatever the update times, persistence and recording step.", "quantifier": "every update sequence, velocity, recorder setting, memory content", "why_tests_cant": "All update histories and all memory contents.", "anchors": ["src/frydom/hydrodynamics/FrEquilibriumFrame.cpp: FrEqFrameMeanMotion::Compute"]}
{"id": "C61", "title": "The optimised wave field answers like the plain one", "statement": "After any history of configuration calls, initialisation and time steps ending with an initialisation or the end of a step, a regular wave field in its optimised form gives the same elevation, velocity, acceleration and pressure as the plain form given the same calls; the optimised irregular field gives the elevation of the plain one.", "quantifier": "every history of calls, every query point and frame convention", "why_tests_cant": "All call histories; caches are refreshed only by some of the calls.", "anchors": ["src/frydom/environment/ocean/freeSurface/waves/airy/FrAiryRegularOptimWaveField.cpp", "src/frydom/environment/ocean/freeSurface/waves/airy/FrAiryRegularWaveField.cpp"]}
{"id": "C62", "title": "Setting the wave period does not depend on earlier periods", "statement": "The first period set on a regular wave field sets the frequency 2 pi / T and the wave number of deep water or the answer of the dispersion solver for the sea; a new field has the period it was made with.", "quantifier": "every sequence of calls, period, depth", "why_tests_cant": "Depends on the history of calls.", "anchors": ["src/frydom/environment/ocean/freeSurface/waves/airy/FrAiryRegularWaveField.cpp: SetWavePeriod"]}
{"id": "C63", "title": "Directional spreading is normalised and centred", "statement": "The cos2s spreading function integrates to one over the circle, is symmetric about the mean direction and largest there; the band of directions is centred on the mean direction and its ends are where the spreading function crosses 1 %.", "quantifier": "every natural spreading factor, mean direction, direction", "why_tests_cant": "Integral over a continuum for unboundedly many exponents; unbounded search loop.", "anchors": ["src/frydom/environment/ocean/freeSurface/waves/FrWaveSpectrum.cpp: FrCos2sDirectionalModel, GetDirectionBandwidth, dichotomySearch"]}
{"id": "C64", "title": "An irregular wave field is ready after Initialize", "statement": "After any sequence of configuration calls, without file, followed by an Initialize that returns, all the tables of an irregular wave field agree in size, wave numbers belong to the frequencies, amplitudes to the spectrum, and every query is answered.", "quantifier": "every sequence of configuration calls and every query", "why_tests_cant": "All orders of the configuration calls.", "anchors": ["src/frydom/environment/ocean/freeSurface/waves/airy/FrAiryIrregularWaveField.cpp: SetWaveFrequencies, SetMeanWaveDirectionAngle, SetDirectionalParameters, ComputeWaveDirections, GenerateRandomWavePhases, Initialize"]}
{"id": "C65", "title": "A wave field written to a file and loaded is the same wave field", "statement": "Writing an initialised irregular wave field and loading the file into another plain field with the same stretching and surroundings gives the same kinematics at every time.", "quantifier": "every configuration history, every time", "why_tests_cant": "All configurations and all times.", "anchors": ["src/frydom/environment/ocean/freeSurface/waves/airy/FrAiryIrregularWaveField.cpp: WriteToJSON, LoadJSON", "src/frydom/environment/ocean/freeSurface/waves/airy/FrAiryIrregularOptimWaveField.cpp: Initialize"]}
{"id": "C66", "title": "Catenary solver", "statement": "When the catenary solver returns, either the far end of the line is at the ending node within the tolerance asked for or the iterations asked for have been used, and each correction was a damped Newton correction; the damping loop ends; at most one non-vertical tension brings the line to given nodes, and the tension found is within a bound set by tolerance and stiffness of the exact one.", "quantifier": "all nodes, lengths, stiffnesses, tolerances, iteration limits, relaxations", "why_tests_cant": "Uniqueness and error bounds range over a continuum of tensions.", "anchors": ["src/frydom/cable/FrCatenaryLine.cpp: solve, guess_tension, Initialize, Compute"]}
{"id": "C67", "title": "Unrolling and strained length of a cable", "statement": "For a line created at time zero, after any sequence of updates at increasing times under any unrolling speed the unstretched length is the initial length plus the speed times the elapsed time; the strained length reported lies between the distance of the ends and the arc length of the stretched line.", "quantifier": "all histories of updates and speed changes; all lines", "why_tests_cant": "All histories, and an integral compared to a polyline.", "anchors": ["src/frydom/cable/FrCable.cpp: UpdateState, SetUnrollingSpeed", "src/frydom/cable/FrCatenaryLine.cpp: GetStrainedLength, Compute"]}
{"id": "C68", "title": "A catenary line loads its two bodies", "statement": "However often a line is initialised it puts exactly one force on each of the two bodies; every reading of this force on the body agrees with the end tension applied at the node; both forces together have the resultant and the moment of the distributed submerged weight.", "quantifier": "all lines, bodies, nodes, frames", "why_tests_cant": "All histories of initialisations and every reading of the force in any frame.", "anchors": ["src/frydom/cable/FrCatenaryLine.cpp: Initialize", "src/frydom/cable/FrCatenaryForce.cpp: Compute"]}
{"id": "C69", "title": "Setting and reading a flow", "statement": "A wind or current given by components, by angle and speed or by a compass point, in either frame convention and as going to or coming from, is read back as that velocity in either convention; after any history the flow is the field last set times the ramp at the time of the last update before the last end of step; the relative velocity in a frame is (in NWU) the flow minus the given velocity, in the axes of the frame; the fluid at a point is air above the surface and water below, in both conventions.", "quantifier": "all velocities, angles, units, conventions, frames and histories of calls", "why_tests_cant": "All angles, conventions and histories.", "anchors": ["src/frydom/environment/flow/FrUniformField.cpp", "src/frydom/environment/flow/FrFlowBase.cpp", "src/frydom/environment/FrEnvironment.cpp: GetRelativeVelocityInFrame, GetFluidTypeAtPointInWorld"]}
{"id": "C70", "title": "Damping and resistance take energy away", "statement": "Linear damping is minus the matrix times the generalized velocity of the centre of gravity, relative to the fluid when asked, and its power is minus the quadratic form: it never gives energy with a positive semidefinite matrix; quadratic damping and ITTC resistance (Reynolds number other than 100) oppose the motion with the stated law; a body that drifts with the fluid feels no relative damping.", "quantifier": "all bodies, velocities, currents, coefficients", "why_tests_cant": "All states and matrices; a sign property of a quadratic form.", "anchors": ["src/frydom/hydrodynamics/damping/FrLinearDamping.cpp", "src/frydom/hydrodynamics/damping/FrQuadraticDamping.cpp", "src/frydom/hydrodynamics/wave_resistance/FrITTCResistance.cpp"]}
{"id": "C71", "title": "Manoeuvring damping", "statement": "After any sequence of Set/SetX/SetY/SetN/ClearAll the manoeuvring force is minus the sum of the terms given since the last ClearAll, each the product of the powers of surge, sway and yaw velocity named by its tag; linear and quadratic terms of one velocity oppose it.", "quantifier": "all sequences of calls, tags, exponents and velocities", "why_tests_cant": "All histories, strings and exponents.", "anchors": ["src/frydom/hydrodynamics/manoeuvring/FrManoeuvringDamping.cpp: FrManDampingTaylorExpansion"]}
{"id": "C72", "title": "Standard wind and current forces", "statement": "On a level ship of any heading the force is the standard formula of the relative flow seen by the ship, applied at the given abscissa, pushes along the flow, vanishes when drifting with the flow, and its yaw moment corresponds to a lever that stays on the ship; Initialize accepts exactly the data sets that are complete.", "quantifier": "all headings, flows, velocities, areas, histories of setters", "why_tests_cant": "All angles (both sides of the atan2 branch) and histories.", "anchors": ["src/frydom/environment/atmosphere/wind/FrWindStandardForce.cpp", "src/frydom/environment/ocean/current/FrCurrentStandardForce.cpp"]}
{"id": "C73", "title": "Polar coefficient tables", "statement": "A table of coefficients starting at 0 or -180 degrees, written all round, closed or as one half, in degrees or radians, NED or NWU, going to or coming from, gives back each of its rows at the direction of the row, interpolates between neighbours for every direction if one row points ahead, and a half table gives a symmetric ship.", "quantifier": "all tables of those forms, all directions", "why_tests_cant": "All tables of any size and all directions.", "anchors": ["src/frydom/environment/flow/FrFlowForce.cpp: ReadTable"]}
{"id": "C74", "title": "Forces from polar tables", "statement": "On a level ship of any heading the force of a polar table is the coefficient of the direction of the relative flow times the dynamic pressure and the area, at any attitude horizontal, with a vertical moment at the centre of gravity; no force when drifting with the flow; flows from the two sides of a ship with a half table whose end rows are symmetric give mirrored forces.", "quantifier": "all bodies, headings, flows, tables", "why_tests_cant": "All headings, flows and tables.", "anchors": ["src/frydom/environment/flow/FrFlowForce.cpp: Compute"]}
{"id": "C75", "title": "Radiation force is the convolution of the kernels with the past", "statement": "After any history of force computations (steps at most one recorder step) of any number of bodies whose equilibrium frames do not advance, the radiation force on each body is minus the sum, over all bodies in motion and their active degrees of freedom, of the trapezoidal integral over the memory of kernel(age) times perturbation velocity at that age, turned into world axes, applied at the centre of gravity; forces of superposed motions superpose; bodies always at rest receive none; asking again at the same time changes nothing.", "quantifier": "all histories of calls, numbers of bodies, kernels, persistences, steps, motions", "why_tests_cant": "Unbounded histories; linearity over all motions.", "anchors": ["src/frydom/hydrodynamics/seakeeping/linear/radiation/FrRadiationModel.cpp: FrRadiationConvolutionModel", "src/frydom/hydrodynamics/seakeeping/linear/radiation/FrRadiationForce.cpp"]}
{"id": "C76", "title": "Forward speed corrections of radiation", "statement": "For a body whose equilibrium frame advances, the force gains the speed times the convolution of its speed kernels with pitch and yaw velocities and its infinite-frequency terms.", "quantifier": "all histories, bodies, speeds", "why_tests_cant": "All histories and numbers of bodies.", "anchors": ["src/frydom/hydrodynamics/seakeeping/linear/radiation/FrRadiationModel.cpp: ConvolutionKu"]}
{"id": "C77", "title": "Masks of degrees of freedom", "statement": "A 0/1 mask gives a number, a list, flags and an expansion matrix that describe the same degrees of freedom; other masks are refused.", "quantifier": "all masks, all earlier states, all matrices", "why_tests_cant": "All masks and states of the object.", "anchors": ["src/frydom/hydrodynamics/seakeeping/linear/hdb/FrBEMBody.cpp: FrBEMDOFMask::SetMask"]}
{"id": "C78", "title": "Default memory of the radiation model", "statement": "The default persistence is pi divided by the frequency step of the database and, when the time step leaves room for it, the default recorder step divides it into one fewer steps than the time steps that fit; initialising with defaults makes every body's recorder ready.", "quantifier": "all frequency discretisations and time steps", "why_tests_cant": "All sizes and real values, including the boundary of the integer conversion.", "anchors": ["src/frydom/hydrodynamics/seakeeping/linear/radiation/FrRadiationModel.cpp: GetImpulseResponseSize, Initialize"]}
{"id": "C79", "title": "Mapping of database bodies to bodies", "statement": "After any sequence of mappings with distinct bodies each query (body, database body, equilibrium frame) answers what was mapped, the number of mappings is right and unmapped bodies throw.", "quantifier": "all sequences of mappings", "why_tests_cant": "All sequences.", "anchors": ["src/frydom/hydrodynamics/seakeeping/linear/hdb/FrHydroMapper.cpp"]}
{"id": "C80", "title": "Kernel tables and added masses of the database", "statement": "The kernel used for a pair of bodies and a motion takes the given values at the times of the discretisation and interpolates between them up to the final time; tables of another size are refused.", "quantifier": "all tables, sizes, times", "why_tests_cant": "All tables and orders of calls.", "anchors": ["src/frydom/hydrodynamics/seakeeping/linear/hdb/FrBEMBody.cpp: SetImpulseResponseFunctionK, SetImpulseResponseFunctionKu, SetInfiniteAddedMass"]}
{"id": "C81", "title": "Value of the linear wave loads", "statement": "For a database with the six rigid modes read from its tables, waves inside its range and an upright equilibrium frame, each of the diffraction, Froude-Krylov and excitation forces is, along the axes of the frame and at the centre of gravity, the sum over the wave components of Im(elevation at the frame times the coefficient interpolated at the direction and frequency); at tabulated points the coefficient is that of the file.", "quantifier": "all tables, discretisations, waves (regular, irregular), frames, bodies, times", "why_tests_cant": "Real-valued tables of any size, any number of components.", "anchors": ["src/frydom/hydrodynamics/seakeeping/linear/excitation/FrLinearHDBForce.cpp: Initialize, BuildHDBInterpolators, GetHDBInterp, Compute_F_HDB", "src/frydom/hydrodynamics/seakeeping/linear/hdb/FrHydroDB.cpp: ExcitationReader"]}
{"id": "C82", "title": "Linear wave loads are linear and bounded", "statement": "Superposed elevations give superposed loads, the load never exceeds the sum of amplitude times coefficient modulus, and in a regular wave it is a pure sine of the phase.", "quantifier": "all tables, waves, elevations, times", "why_tests_cant": "All amplitudes and instants.", "anchors": ["src/frydom/hydrodynamics/seakeeping/linear/excitation/FrLinearHDBForce.cpp: Initialize, BuildHDBInterpolators, GetHDBInterp, Compute_F_HDB"]}
{"id": "C83", "title": "Excitation is diffraction plus Froude-Krylov", "statement": "The excitation force and torque are the sums of the diffraction and of the Froude-Krylov forces and torques.", "quantifier": "all tables, waves, frames, bodies", "why_tests_cant": "All tables and waves.", "anchors": ["src/frydom/hydrodynamics/seakeeping/linear/hdb/FrBEMBody.cpp: ComputeExcitation", "src/frydom/hydrodynamics/seakeeping/linear/excitation/FrLinearHDBForce.cpp: Initialize, BuildHDBInterpolators, GetHDBInterp, Compute_F_HDB"]}
{"id": "C84", "title": "Initialisation of wave loads checks the range", "statement": "Initialising a wave load succeeds exactly when all wave frequencies and all wave directions (reduced to 0..360 degrees) lie in the range of the database; otherwise the program stops.", "quantifier": "all databases, masks, waves", "why_tests_cant": "All real values, boundaries included.", "anchors": ["src/frydom/hydrodynamics/seakeeping/linear/excitation/FrLinearHDBForce.cpp: Initialize, BuildHDBInterpolators, GetHDBInterp, Compute_F_HDB"]}
{"id": "C85", "title": "Wave loads follow new waves", "statement": "When the force is initialised again for the same wave components the loads use the same coefficients.", "quantifier": "all databases, pairs of waves", "why_tests_cant": "All histories of initialisations.", "anchors": ["src/frydom/hydrodynamics/seakeeping/linear/excitation/FrLinearHDBForce.cpp: Initialize, BuildHDBInterpolators, GetHDBInterp, Compute_F_HDB"]}
{"id": "C86", "title": "Wave loads depend on the heading", "statement": "The coefficients are taken at the direction of the waves relative to the heading of the ship, since the loads are applied along its axes.", "quantifier": "all headings, waves, tables", "why_tests_cant": "All headings.", "anchors": ["src/frydom/hydrodynamics/seakeeping/linear/excitation/FrLinearHDBForce.cpp: Initialize, BuildHDBInterpolators, GetHDBInterp, Compute_F_HDB"]}
{"id": "C87", "title": "Masked degrees of freedom of wave loads", "statement": "With the first n degrees of freedom active, each of them receives the load of its row of the file and the others none.", "quantifier": "all masks, tables, waves", "why_tests_cant": "All masks and tables.", "anchors": ["src/frydom/hydrodynamics/seakeeping/linear/excitation/FrLinearHDBForce.cpp: Initialize, BuildHDBInterpolators, GetHDBInterp, Compute_F_HDB", "src/frydom/hydrodynamics/seakeeping/linear/hdb/FrHydroDB.cpp: ExcitationReader"]}
{"id": "C88", "title": "Value of the wave drift force", "statement": "Inside the range of the drift table the drift force is the sum over the components of squared amplitude times the coefficient interpolated at the direction from the heading and the encounter frequency, along the axes of the body at the centre of gravity; modes without table get nothing; outside of the range the program stops.", "quantifier": "all tables, waves, frames, speeds, bodies", "why_tests_cant": "Real-valued tables of any size.", "anchors": ["src/frydom/hydrodynamics/seakeeping/linear/second_order_drift/FrWaveDriftForce.cpp: Compute, GetRelativeWaveDir, GetEncounterWaveFrequencies"]}
{"id": "C89", "title": "Wave drift is quadratic and steady", "statement": "Multiplying all amplitudes by c multiplies the drift load by c squared, and the load does not change from one update of the waves to the next.", "quantifier": "all tables, waves, factors, times", "why_tests_cant": "All factors and times.", "anchors": ["src/frydom/hydrodynamics/seakeeping/linear/second_order_drift/FrWaveDriftForce.cpp: Compute"]}
{"id": "C90", "title": "Wave drift for every heading and attitude", "statement": "The drift force is defined for every heading (directions are taken modulo 360 degrees) and stays in the horizontal plane when the ship rolls.", "quantifier": "all headings, attitudes", "why_tests_cant": "All attitudes.", "anchors": ["src/frydom/hydrodynamics/seakeeping/linear/second_order_drift/FrWaveDriftForce.cpp: Compute, GetRelativeWaveDir"]}
{"id": "C91", "title": "Nonlinear Froude-Krylov force integrates the pressure", "statement": "Force and moment about every point are the sums over the triangles of the mesh of minus the pressure at the centre times the area along the normal; this is the exact integral for affine pressures; on a closed surface a uniform pressure gives neither force nor moment and an affine one minus its gradient times the volume.", "quantifier": "all meshes, pressures, bodies, points", "why_tests_cant": "All meshes and pressure fields.", "anchors": ["src/frydom/hydrodynamics/seakeeping/linear/excitation/FrNonLinearFroudeKrylovForce.cpp: Compute"]}
{"id": "C92", "title": "Wave loads in still water", "statement": "A ship with linear wave loads can be simulated in still water.", "quantifier": "all databases with positive frequencies", "why_tests_cant": "All databases.", "anchors": ["src/frydom/hydrodynamics/seakeeping/linear/excitation/FrLinearHDBForce.cpp: Initialize, BuildHDBInterpolators, GetHDBInterp, Compute_F_HDB", "src/frydom/environment/ocean/freeSurface/waves/FrWaveField.cpp: FrNullWaveField"]}
{"id": "C93", "title": "Wave drift follows the ramp", "statement": "While the ramp holds the waves back, the drift force is that of the waves as they are.", "quantifier": "all ramps and waves", "why_tests_cant": "All times.", "anchors": ["src/frydom/hydrodynamics/seakeeping/linear/second_order_drift/FrWaveDriftForce.cpp: Compute"]}
{"id": "C94", "title": "Clamping a function that was queried before", "statement": "History independence also holds when a clamp is applied to a function that has been queried before.", "quantifier": "every expression tree, every finite history of queries, every abscissa", "why_tests_cant": "The caches make the result depend on the whole query history and on the tree shape; tests only try a few histories on a few trees.", "anchors": ["src/frydom/core/math/functions/FrFunctionBase.cpp: Get_y, Get_y_dx, Get_y_dxdx, Eval of the operators", "src/frydom/core/math/functions/FrFunctionBase.h: IsEval, EvalFunctions", "src/frydom/core/math/functions/lib/*.cpp"]}
{"id": "C95", "title": "X offset survives copies and use in expressions", "statement": "After SetXOffset(a), a copy of the function, and the function used as an operand of a larger expression, behave as x -> f(x - a).", "quantifier": "every function, every offset, every enclosing expression", "why_tests_cant": "Needs every expression context; the copy made by an operator is the place where state can be lost.", "anchors": ["src/frydom/core/math/functions/FrFunctionBase.cpp: SetXOffset, copy constructor, operator+"]}
{"id": "C96", "title": "Clamping a queried function holds it constant outside its bound", "statement": "The clamp of a function that was queried before has zero derivatives outside its bound.", "quantifier": "every inner function, every bound, every query history", "why_tests_cant": "Cache interaction between the clamp and the clamped function depends on the query history.", "anchors": ["src/frydom/core/math/functions/lib/FrClampFunction.cpp: FrClampAfterFunction::Eval, FrClampBeforeFunction::Eval"]}
{"id": "C97", "title": "One-sided saturations", "statement": "saturate_low(f,ymin) is max(ymin,f); saturate_high(f,ymax) is min(ymax,f).", "quantifier": "every inner function, every bound, every abscissa", "why_tests_cant": "Universal over values; the one-sided variants rely on default bounds that no example with both bounds exercises.", "anchors": ["src/frydom/core/math/functions/lib/FrSaturateFunction.cpp", "src/frydom/core/math/functions/lib/FrSaturateFunction.h"]}
{"id": "C98", "title": "Frame set by three axes follows the frame convention", "statement": "A frame set from a position and three axes given in a convention has these axes when read in this convention.", "quantifier": "every vector, both conventions, every setter/getter pair of positions, frames, forces and velocities modelled", "why_tests_cant": "An algebraic law over all vectors.", "anchors": ["src/frydom/core/math/FrVector.h: SwapFrameConvention", "src/frydom/core/common/FrFrame.cpp: SetPosition, GetPosition"]}
{"id": "C99", "title": "Cardan angles in gimbal lock", "statement": "When the pitch is +-pi/2 the reported Cardan angles are defined and describe the rotation.", "quantifier": "all angles", "why_tests_cant": "Continuum plus a singular set that sampling misses.", "anchors": ["src/frydom/core/math/FrEulerAngles.inl: eul2quat_xyz, eul2mat_xyz, mat2eul_xyz", "src/frydom/core/common/FrRotation.cpp: SetCardanAngles_RADIANS, GetCardanAngles_RADIANS"]}
{"id": "C100", "title": "Frame product assignment, rotations by radians, projection on the horizontal", "statement": "F *= G leaves F equal to F*G; rotating a frame by angles in radians in its own axes rotates by those radians; projecting a frame on the horizontal plane yields a frame whose rotation is about the vertical axis.", "quantifier": "all frames, all angles", "why_tests_cant": "Universal over a continuum; most examples use identity frames on which wrong composition order is invisible.", "anchors": ["src/frydom/core/common/FrFrame.cpp: operator*=, RotateInFrame, ProjectToXYPlane"]}
{"id": "C101", "title": "Translating and rotating a node in body or world axes", "statement": "TranslateInBody and RotateInBody of a node act along the axes of the body, RotateInWorld about the axes of the world.", "quantifier": "all bodies, COG offsets, node frames and motions", "why_tests_cant": "Continuum of poses and COG offsets.", "anchors": ["src/frydom/core/common/FrNode.cpp"]}
{"id": "C102", "title": "Inertia data given at the centre of gravity in NED", "statement": "Constructing or setting an inertia tensor at the centre of gravity from NED coefficients gives the same mass properties as from the converted coefficients in NWU.", "quantifier": "every set of coefficients and frame", "why_tests_cant": "Sign conventions are only visible for nonzero products of inertia.", "anchors": ["src/frydom/core/body/FrInertiaTensor.cpp: FrInertiaTensor constructors, SetInertiaTensorAtCOG"]}
{"id": "C103", "title": "A removed force can be added again", "statement": "A force that was removed from a body can be added to it again.", "quantifier": "every operation sequence", "why_tests_cant": "Histories are unbounded; errors in the middle of an operation leave intermediate states.", "anchors": ["src/frydom/core/body/FrBody.cpp: AddExternalForce, RemoveExternalForce, RemoveAllForces", "src/frydom/logging/FrPathManager.h: RegisterTreeNode"]}
{"id": "C104", "title": "Log paths of objects with arbitrary names", "statement": "Objects with different names or parents have different log paths, whatever the names.", "quantifier": "every registration sequence, every set of names", "why_tests_cant": "Unbounded histories and names.", "anchors": ["src/frydom/logging/FrPathManager.h: GetPath, RegisterTreeNode", "src/frydom/logging/FrPathPolicies.cpp"]}
{"id": "C105", "title": "Adding again, Clear and cable removal undo their registrations", "statement": "An object that was removed can be added again; Clear leaves an empty system; removing a dynamic cable removes its hinges.", "quantifier": "every operation sequence", "why_tests_cant": "Unbounded histories.", "anchors": ["src/frydom/core/FrOffshoreSystem.cpp: Add, Remove, AddBody, RemoveBody, AddLink, RemoveLink", "src/frydom/logging/FrLogManager.cpp: Add, Remove, Has"]}
{"id": "C106", "title": "Time recorder with large time increments", "statement": "The recorder holds the resampled history also when a time increment exceeds its step.", "quantifier": "every recording sequence with increments in (0, dt]", "why_tests_cant": "Depends on the whole recording history.", "anchors": ["src/frydom/utils/FrRecorder.h: FrTimeRecorder::Record, GetData, GetTime, Interpolate"]}
{"id": "C107", "title": "Mixed monomials of face integrals", "statement": "The stored integrals of the monomials YZ, XZ and XY equal their surface integrals over the triangle.", "quantifier": "every triangle, every monomial", "why_tests_cant": "Polynomial identity over nine real coordinates.", "anchors": ["src/frydom/mesh/FrMesh.cpp: CalcFacePolynomialIntegrals"]}
{"id": "C108", "title": "Cubic polygon integrals", "statement": "The integrals of x^3, y^3, x^2 y and x y^2 equal the integrals over the polygon.", "quantifier": "every polygon with any number of vertices, every monomial", "why_tests_cant": "Any number of vertices; continuum of coordinates.", "anchors": ["src/frydom/mesh/FrPolygon.cpp: ComputeSurfacePolynomialIntegrals"]}
{"id": "C109", "title": "Clipping by a discontinuous surface", "statement": "The intersection returned lies on the edge for every free surface, continuous or not.", "quantifier": "every crossing edge, every plane, every Lipschitz wave surface", "why_tests_cant": "Continuum of inputs; loop of up to 1001 iterations with a silent fallback.", "anchors": ["src/frydom/mesh/FrMeshClipper.cpp: FrClippingPlane::GetIntersection, FrClippingWaveSurface::GetIntersection"]}
{"id": "C110", "title": "Hydrostatic properties again and with a moonpool", "statement": "Computing the properties again gives the same result; a hull with a moonpool has the waterplane without the hole.", "quantifier": "every waterplane, volume, reduction point and number of calls", "why_tests_cant": "Continuum of inputs and repeated calls.", "anchors": ["src/frydom/hydrodynamics/hydrostatic/FrHydrostaticsProperties.cpp: CalcHydrostaticProperties"]}
{"id": "C111", "title": "Airy kinematics at the bed of a deep sea and during a ramp", "statement": "The vertical velocity vanishes at the bed whenever the depth is finite; during a ramp the acceleration is still the time derivative of the velocity.", "quantifier": "all positions, times, wave parameters, any number of frequencies and directions", "why_tests_cant": "Field identities over a continuum.", "anchors": ["src/frydom/environment/ocean/freeSurface/waves/airy/FrAiryRegularWaveField.cpp", "src/frydom/environment/ocean/freeSurface/waves/airy/FrAiryIrregularWaveField.cpp", "src/frydom/environment/ocean/freeSurface/waves/FrKinematicStretching.cpp"]}
{"id": "C112", "title": "Velocity, acceleration, pressure and cut-off of waves in NED", "statement": "Velocity, acceleration and pressure queried in NED at the NED coordinates of a point are the conversions of the NWU answers at that point, also with the cut-off above the surface.", "quantifier": "all positions, times, waves", "why_tests_cant": "Only visible off the symmetry plane.", "anchors": ["src/frydom/environment/ocean/freeSurface/waves/airy/FrAiryRegularWaveField.cpp: GetComplexElevation, GetComplexVelocity, GetPressure"]}
{"id": "C113", "title": "Relative accuracy of the dispersion solver", "statement": "The wave number returned has a relative error below the tolerance.", "quantifier": "all frequencies, depths, gravities", "why_tests_cant": "Newton loop without iteration bound over a continuum.", "anchors": ["src/frydom/environment/ocean/freeSurface/waves/FrWaveDispersionRelation.cpp: SolveWaveDispersionRelation"]}
{"id": "C114", "title": "Spectra are nonnegative for every gamma", "statement": "Every JONSWAP spectrum the library lets one build is nonnegative.", "quantifier": "all Hs, Tp, frequencies", "why_tests_cant": "Improper integral over a continuum.", "anchors": ["src/frydom/environment/ocean/freeSurface/waves/FrWaveSpectrum.cpp: FrPiersonMoskowitzWaveSpectrum::Eval, FrJonswapWaveSpectrum::Eval"]}
{"id": "C115", "title": "Bands of the discretised spectrum for every list", "statement": "The amplitudes are defined for every list of frequencies and directions, three included, and for every directional model; the widths of the bands add up to the range.", "quantifier": "every frequency list of every length", "why_tests_cant": "Depends on the list length.", "anchors": ["src/frydom/environment/ocean/freeSurface/waves/FrWaveSpectrum.cpp: vectorDiscretization, GetWaveAmplitudes"]}
{"id": "C116", "title": "Wave direction in radians or as a vector", "statement": "Setting the wave direction in radians or as a vector in any frame and direction convention and reading it back gives the same direction.", "quantifier": "all angles, units and conventions", "why_tests_cant": "All combinations of conventions over a continuum of angles.", "anchors": ["src/frydom/environment/ocean/freeSurface/waves/airy/FrAiryRegularWaveField.cpp: SetDirection, GetDirectionAngle, GetDirection"]}
{"id": "C117", "title": "Frequency bandwidth search in double precision", "statement": "The bisection used for the bandwidth terminates in double precision.", "quantifier": "every spectrum function and bracket", "why_tests_cant": "Unbounded loop over arbitrary functions.", "anchors": ["src/frydom/environment/ocean/freeSurface/waves/FrWaveSpectrum.cpp: dichotomySearch"]}
{"id": "C118", "title": "Catenary line of a neutral or modified cable", "statement": "A neutrally buoyant cable has a defined shape; changing the properties of the cable changes the line.", "quantifier": "all tensions, lengths, weights, stiffnesses", "why_tests_cant": "Differential identity over a continuum.", "anchors": ["src/frydom/cable/FrCatenaryLine.cpp: GetTension, GetUnstrainedChord, GetElasticIncrement, GetNodePositionInWorld"]}
{"id": "C119", "title": "make_cable_properties", "statement": "Creating cable properties from (diameter, linear density, Young modulus) stores these values.", "quantifier": "all positive property values", "why_tests_cant": "Order and permutation of arguments are invisible on equal values.", "anchors": ["src/frydom/cable/FrCable.cpp: FrCableProperties, make_cable_properties"]}
{"id": "C120", "title": "Slow equilibrium frames, NED velocities, restart", "statement": "An equilibrium frame moves at its velocity however small; velocities set in NED are read back in NED; initialising again during a simulation does not move the frame.", "quantifier": "every update sequence, velocity, convention", "why_tests_cant": "Path independence over all update sequences.", "anchors": ["src/frydom/hydrodynamics/FrEquilibriumFrame.cpp: Compute, SetVelocityInWorld, SetVelocityInFrame, GetFrameVelocityInFrame"]}
{"id": "C121", "title": "Shell inertia from meshes", "statement": "The shell tensor of a mesh has mass density*thickness*area.", "quantifier": "every closed mesh, density, thickness", "why_tests_cant": "Any number of faces.", "anchors": ["src/frydom/mesh/FrMesh.cpp: GetPlainInertiaTensor, GetShellInertiaTensor"]}
{"id": "C122", "title": "Archimedes with a tide", "statement": "With a tide height h the nonlinear hydrostatic force of a floating body is Archimedes' force on the volume below the raised surface.", "quantifier": "every closed mesh, tide height, density, gravity", "why_tests_cant": "Any mesh and any tide; tests run at zero tide.", "anchors": ["src/frydom/mesh/FrHydroMesh.cpp: Compute", "src/frydom/hydrodynamics/hydrostatic/FrNonlinearHydrostaticForce.cpp: GetHydrostaticForceInWorld"]}
{"id": "C123", "title": "Equilibrium solver: place, memory, submerged body, earlier calls", "statement": "The equilibrium found does not depend on where the body is, on the contents of memory nor on earlier calls, exists for submerged bodies, and corrections turn the body about the axes of the moments.", "quantifier": "every body, mesh, clipping function, linear solver, tolerance, number of iterations", "why_tests_cant": "Unbounded iteration histories and arbitrary clipping functions.", "anchors": ["src/frydom/hydrodynamics/hydrostatic/FrHydroStaticEquilibrium.cpp: SolveDisplacement, SolveEquilibrium"]}
{"id": "C124", "title": "Linear hydrostatic force made from a mesh or bow up", "statement": "The force made from the hull mesh uses the stiffness about the centre of gravity; it is defined for every attitude.", "quantifier": "every pose of the body and of the frame, every hull mesh, stiffness, mass", "why_tests_cant": "Continuum of poses and a derivative identity over all meshes.", "anchors": ["src/frydom/hydrodynamics/hydrostatic/FrLinearHydrostaticForce.cpp: Compute, make_linear_hydrostatic_force", "src/frydom/hydrodynamics/FrEquilibriumFrame.cpp: GetPerturbationFrame"]}
{"id": "C125", "title": "Spring-damping frame: heading wrap and restart", "statement": "Heading differences are taken the short way round; initialisation restarts the spring-damping frame.", "quantifier": "every body motion, update times, step size, cut-off time, damping ratio, heading", "why_tests_cant": "Convergence over unbounded numbers of steps for all parameters.", "anchors": ["src/frydom/hydrodynamics/FrEquilibriumFrame.cpp: FrEqFrameSpringDamping::Compute, SetSpringDamping"]}
{"id": "C126", "title": "Mean-motion frame does not depend on memory", "statement": "The motion of the mean-motion frame does not depend on the contents of memory at its creation.", "quantifier": "every update sequence, velocity, recorder setting, memory content", "why_tests_cant": "All update histories and all memory contents.", "anchors": ["src/frydom/hydrodynamics/FrEquilibriumFrame.cpp: FrEqFrameMeanMotion::Compute"]}
{"id": "C127", "title": "Optimised wave field during a step", "statement": "The optimised wave field answers like the plain one also between Update and StepFinalize.", "quantifier": "every history of calls, every query point and frame convention", "why_tests_cant": "All call histories; caches are refreshed only by some of the calls.", "anchors": ["src/frydom/environment/ocean/freeSurface/waves/airy/FrAiryRegularOptimWaveField.cpp", "src/frydom/environment/ocean/freeSurface/waves/airy/FrAiryRegularWaveField.cpp"]}
{"id": "C128", "title": "Setting the wave period again", "statement": "The wave length of a regular wave field depends on the last period set and on the sea only, not on the periods set before.", "quantifier": "every sequence of calls, period, depth", "why_tests_cant": "Depends on the history of calls.", "anchors": ["src/frydom/environment/ocean/freeSurface/waves/airy/FrAiryRegularWaveField.cpp: SetWavePeriod"]}
{"id": "C129", "title": "Spreading over two directions and beyond half a turn", "statement": "The discretised directions share out the energy of the sea; the spreading is defined for every direction.", "quantifier": "every natural spreading factor, mean direction, direction", "why_tests_cant": "Integral over a continuum for unboundedly many exponents; unbounded search loop.", "anchors": ["src/frydom/environment/ocean/freeSurface/waves/FrWaveSpectrum.cpp: FrCos2sDirectionalModel, GetDirectionBandwidth, dichotomySearch"]}
{"id": "C130", "title": "An irregular wave field uses what was asked for, in any order", "statement": "The mean direction, spectrum, frequencies and seeded phases asked for before Initialize are the ones used, whatever the order of the calls, and a field without directional model or spectrum type can be initialised.", "quantifier": "every sequence of configuration calls and every query", "why_tests_cant": "All orders of the configuration calls.", "anchors": ["src/frydom/environment/ocean/freeSurface/waves/airy/FrAiryIrregularWaveField.cpp: SetWaveFrequencies, SetMeanWaveDirectionAngle, SetDirectionalParameters, ComputeWaveDirections, GenerateRandomWavePhases, Initialize"]}
{"id": "C131", "title": "Loading a wave field into the optimised form", "statement": "Loading a written wave field into an optimised field gives the same kinematics.", "quantifier": "every configuration history, every time", "why_tests_cant": "All configurations and all times.", "anchors": ["src/frydom/environment/ocean/freeSurface/waves/airy/FrAiryIrregularWaveField.cpp: WriteToJSON, LoadJSON", "src/frydom/environment/ocean/freeSurface/waves/airy/FrAiryIrregularOptimWaveField.cpp: Initialize"]}
{"id": "C132", "title": "Catenary solver reports failure and handles taut and vertical lines", "statement": "The solver tells when it has not converged; lines shorter than the distance of their nodes and vertical lines are solved.", "quantifier": "all nodes, lengths, stiffnesses, tolerances, iteration limits, relaxations", "why_tests_cant": "Uniqueness and error bounds range over a continuum of tensions.", "anchors": ["src/frydom/cable/FrCatenaryLine.cpp: solve, guess_tension, Initialize, Compute"]}
{"id": "C133", "title": "Unrolling of a line created late", "statement": "A line created after the start of the simulation pays out for the time since its creation.", "quantifier": "all histories of updates and speed changes; all lines", "why_tests_cant": "All histories, and an integral compared to a polyline.", "anchors": ["src/frydom/cable/FrCable.cpp: UpdateState, SetUnrollingSpeed", "src/frydom/cable/FrCatenaryLine.cpp: GetStrainedLength, Compute"]}
{"id": "C134", "title": "Relative flow in NED", "statement": "The relative velocity of the flow in a frame asked for in NED has NED components.", "quantifier": "all velocities, angles, units, conventions, frames and histories of calls", "why_tests_cant": "All angles, conventions and histories.", "anchors": ["src/frydom/environment/flow/FrUniformField.cpp", "src/frydom/environment/flow/FrFlowBase.cpp", "src/frydom/environment/FrEnvironment.cpp: GetRelativeVelocityInFrame, GetFluidTypeAtPointInWorld"]}
{"id": "C135", "title": "Check of damping matrices, resistance at every speed and in a current", "statement": "Initialize accepts exactly the positive semidefinite damping matrices; ITTC resistance is defined at every speed and depends on the speed through the water.", "quantifier": "all bodies, velocities, currents, coefficients", "why_tests_cant": "All states and matrices; a sign property of a quadratic form.", "anchors": ["src/frydom/hydrodynamics/damping/FrLinearDamping.cpp", "src/frydom/hydrodynamics/damping/FrQuadraticDamping.cpp", "src/frydom/hydrodynamics/wave_resistance/FrITTCResistance.cpp"]}
{"id": "C136", "title": "Manoeuvring damping opposes the motion", "statement": "Terms of one velocity of any power oppose it; the damping of a positive diagonal set never gives energy.", "quantifier": "all sequences of calls, tags, exponents and velocities", "why_tests_cant": "All histories, strings and exponents.", "anchors": ["src/frydom/hydrodynamics/manoeuvring/FrManoeuvringDamping.cpp: FrManDampingTaylorExpansion"]}
{"id": "C137", "title": "Standard flow force: unset abscissa, capsized ship", "statement": "The abscissa of the centre is defined when it was not given; the force pushes along the flow at every attitude.", "quantifier": "all headings, flows, velocities, areas, histories of setters", "why_tests_cant": "All angles (both sides of the atan2 branch) and histories.", "anchors": ["src/frydom/environment/atmosphere/wind/FrWindStandardForce.cpp", "src/frydom/environment/ocean/current/FrCurrentStandardForce.cpp"]}
{"id": "C138", "title": "Polar tables without row ahead or with rows near the bow", "statement": "The table answers for every direction whatever rows it has, and a half table with rows close to the bow keeps all of them.", "quantifier": "all tables of those forms, all directions", "why_tests_cant": "All tables of any size and all directions.", "anchors": ["src/frydom/environment/flow/FrFlowForce.cpp: ReadTable"]}
{"id": "C139", "title": "Forward speed corrections of several ships and going astern", "statement": "Ships without hydrodynamic interaction do not influence each other; the corrections change sign with the speed.", "quantifier": "all histories, bodies, speeds", "why_tests_cant": "All histories and numbers of bodies.", "anchors": ["src/frydom/hydrodynamics/seakeeping/linear/radiation/FrRadiationModel.cpp: ConvolutionKu"]}
{"id": "C140", "title": "Giving a mask again", "statement": "Giving a mask again replaces the former one.", "quantifier": "all masks, all earlier states, all matrices", "why_tests_cant": "All masks and states of the object.", "anchors": ["src/frydom/hydrodynamics/seakeeping/linear/hdb/FrBEMBody.cpp: FrBEMDOFMask::SetMask"]}
{"id": "C141", "title": "Default memory for every database and time step", "statement": "The default recorder step is defined for every database and time step.", "quantifier": "all frequency discretisations and time steps", "why_tests_cant": "All sizes and real values, including the boundary of the integer conversion.", "anchors": ["src/frydom/hydrodynamics/seakeeping/linear/radiation/FrRadiationModel.cpp: GetImpulseResponseSize, Initialize"]}
{"id": "C142", "title": "Mapping a database body again", "statement": "Mapping a database body to another body replaces the old mapping.", "quantifier": "all sequences of mappings", "why_tests_cant": "All sequences.", "anchors": ["src/frydom/hydrodynamics/seakeeping/linear/hdb/FrHydroMapper.cpp"]}
{"id": "C143", "title": "Kernels given again", "statement": "Kernels given again for a pair of bodies replace the old ones.", "quantifier": "all tables, sizes, times", "why_tests_cant": "All tables and orders of calls.", "anchors": ["src/frydom/hydrodynamics/seakeeping/linear/hdb/FrBEMBody.cpp: SetImpulseResponseFunctionK, SetImpulseResponseFunctionKu, SetInfiniteAddedMass"]}
{"id": "C144", "title": "Stretching above the switch and selection of every model", "statement": "EvalDZ is the vertical derivative also above the switch level; selecting any stretching model makes it effective.", "quantifier": "all elevations, wave numbers, depths, models", "why_tests_cant": "Continuum, plus all selector values.", "anchors": ["src/frydom/environment/ocean/freeSurface/waves/FrKinematicStretching.cpp", "src/frydom/environment/ocean/freeSurface/waves/airy/FrAiryRegularWaveField.cpp: SetStretching"]}
{"id": "C145", "title": "Reconfiguring a function object takes effect at the last queried abscissa", "statement": "After Set on a power function, SetByTwoPoints on a ramp or Set on a clamp, a query at the last queried abscissa answers with the new parameters.", "quantifier": "every parameter, every query history, every abscissa", "why_tests_cant": "the failure only appears when the next query hits the abscissa of the last query before the reconfiguration", "anchors": ["src/frydom/core/math/functions/lib/FrPowFunction.cpp:FrPowFunction::Set", "src/frydom/core/math/functions/ramp/FrLinearRampFunction.cpp:SetByTwoPoints", "src/frydom/core/math/functions/ramp/FrCosRampFunction.cpp:SetByTwoPoints"]}
{"id": "C146", "title": "Stiffness matrix of the solver in NED and away from the origin", "statement": "The stiffness matrix asked from the equilibrium solver does not depend on the frame convention of the point nor on where the body is in the world.", "quantifier": "every body position, mesh, reduction point, frame convention", "why_tests_cant": "Continuum of positions and points; tests place the body at the origin.", "anchors": ["src/frydom/hydrodynamics/hydrostatic/FrHydroStaticEquilibrium.cpp: GetHydrostaticMatrix, GetHydrostaticMatrixAtCOG"]}
{"id": "C147", "title": "A failed Add does not leave the object in the system", "statement": "If adding an object to the system reports an error, the system does not contain the object.", "quantifier": "every system state, every object", "why_tests_cant": "Needs the error path in every state.", "anchors": ["src/frydom/core/FrOffshoreSystem.cpp: Add, AddBody"]}
{"id": "C148", "title": "RemoveAll empties the system", "statement": "RemoveAllBodies, RemoveAllLinks, RemoveAllConstraints and RemoveAllActuators leave the corresponding list empty, for every content of the system.", "quantifier": "every list content", "why_tests_cant": "The defect depends on iterator invalidation, i.e. on the number of elements.", "anchors": ["src/frydom/core/FrOffshoreSystem.cpp: RemoveAllBodies, RemoveAllLinks, RemoveAllConstraints, RemoveAllActuators"]}
{"id": "C149", "title": "Wave loads follow new waves", "statement": "When the waves change and the force is initialised again, the loads use the coefficients of the new waves.", "quantifier": "all databases, pairs of waves", "why_tests_cant": "All histories of initialisations.", "anchors": ["src/frydom/hydrodynamics/seakeeping/linear/excitation/FrLinearHDBForce.cpp: Initialize, BuildHDBInterpolators, GetHDBInterp, Compute_F_HDB"]}
{"id": "C150", "title": "Wave loads for every mask", "statement": "Each active degree of freedom receives the load of its row of the file and the others none, for every mask.", "quantifier": "all masks, tables, waves", "why_tests_cant": "All masks and tables.", "anchors": ["src/frydom/hydrodynamics/seakeeping/linear/excitation/FrLinearHDBForce.cpp: Initialize, BuildHDBInterpolators, GetHDBInterp, Compute_F_HDB", "src/frydom/hydrodynamics/seakeeping/linear/hdb/FrHydroDB.cpp: ExcitationReader"]}
{"id": "C151", "title": "Generalized mass and its inverse", "statement": "For any number of bodies the generalized mass of a pair is the infinite frequency added mass of the database plus, for a body with itself, its mass matrix at the centre of gravity, and the blocks stored at initialisation form the two-sided inverse of the whole matrix.", "quantifier": "every number of bodies, added masses, inertia tensors", "why_tests_cant": "Any number of bodies and any real matrices.", "anchors": ["src/frydom/hydrodynamics/seakeeping/linear/radiation/FrRadiationModelBase.cpp: BuildGeneralizedMass, GetGeneralizedMass, GetInverseGeneralizedMass, IntLoadResidual_Mv"]}
{"id": "C152", "title": "Coupled equations of motion with added mass", "statement": "With all bodies free, the accelerations computed for the forces of all bodies are the unique solution of (mass + added mass) times accelerations = forces, the momenta loaded before a velocity solve give the velocities back, the pairwise product inverts every vector, and with added masses that take no energy forces do positive work on the accelerations they cause.", "quantifier": "every fleet, forces, velocities", "why_tests_cant": "Unbounded number of bodies, all real forces.", "anchors": ["src/frydom/hydrodynamics/seakeeping/linear/radiation/FrRadiationModelBase.cpp: BuildGeneralizedMass, GetGeneralizedMass, GetInverseGeneralizedMass, IntLoadResidual_Mv", "src/frydom/hydrodynamics/seakeeping/linear/radiation/FrVariablesBEMBodyBase.cpp: Compute_invMb_v, Compute_inc_invMb_v, Compute_inc_Mb_v, MultiplyAndAdd, DiagonalAdd, Build_M"]}
{"id": "C153", "title": "Added mass in the residual of the integrator", "statement": "The residual of each free body gains c times its added masses times the speeds of the free bodies, at its own place and nowhere else; the diagonal and the matrix block of each body are those of its generalized mass.", "quantifier": "every fleet, state layout without overlap, vector, factor", "why_tests_cant": "All layouts and sizes.", "anchors": ["src/frydom/hydrodynamics/seakeeping/linear/radiation/FrRadiationModelBase.cpp: BuildGeneralizedMass, GetGeneralizedMass, GetInverseGeneralizedMass, IntLoadResidual_Mv", "src/frydom/hydrodynamics/seakeeping/linear/radiation/FrVariablesBEMBodyBase.cpp: Compute_invMb_v, Compute_inc_invMb_v, Compute_inc_Mb_v, MultiplyAndAdd, DiagonalAdd, Build_M"]}
{"id": "C154", "title": "The variables of the bodies represent one linear mass operator", "statement": "The inverse mass product is linear in the vector given, the product with a vector works at the place of the body, and the assembled matrix contains the coupling between bodies.", "quantifier": "every vector, place, fleet", "why_tests_cant": "The failure needs coupled bodies and special vectors.", "anchors": ["src/frydom/hydrodynamics/seakeeping/linear/radiation/FrVariablesBEMBodyBase.cpp: Compute_invMb_v, Compute_inc_invMb_v, Compute_inc_Mb_v, MultiplyAndAdd, DiagonalAdd, Build_M"]}
{"id": "C155", "title": "Inertia changed after the initialisation", "statement": "After the inertia of a body is changed the accelerations solve the equations with the new inertia.", "quantifier": "every change", "why_tests_cant": "Needs a change during the simulation.", "anchors": ["src/frydom/hydrodynamics/seakeeping/linear/radiation/FrRadiationModelBase.cpp: BuildGeneralizedMass, GetGeneralizedMass, GetInverseGeneralizedMass, IntLoadResidual_Mv"]}
{"id": "C156", "title": "Free bodies next to a fixed one", "statement": "The accelerations of the free bodies solve their equations when another body is fixed.", "quantifier": "every set of fixed bodies", "why_tests_cant": "Needs coupling with a fixed body.", "anchors": ["src/frydom/hydrodynamics/seakeeping/linear/radiation/FrVariablesBEMBodyBase.cpp: Compute_invMb_v, Compute_inc_invMb_v, Compute_inc_Mb_v, MultiplyAndAdd, DiagonalAdd, Build_M"]}
{"id": "C157", "title": "Added mass turns with the ship", "statement": "For a ship of heading psi the added mass load is that of the database in the axes of the ship.", "quantifier": "every heading", "why_tests_cant": "Sample ships head along x.", "anchors": ["src/frydom/hydrodynamics/seakeeping/linear/radiation/FrRadiationModelBase.cpp: BuildGeneralizedMass, GetGeneralizedMass, GetInverseGeneralizedMass, IntLoadResidual_Mv"]}
{"id": "C158", "title": "A Morison tube is placed between its two points", "statement": "A tube built between two points of a body has its node at the middle, a right-handed frame along it, the length and volume of the cylinder; it stays there under every later motion of the body, and building it changes neither the body nor its other nodes. Built from two nodes it is the tube between their positions.", "quantifier": "every body state, pair of points, usable reference direction, later operations on the body", "why_tests_cant": "Real positions and unbounded histories.", "anchors": ["src/frydom/hydrodynamics/morison/FrMorisonModel.cpp: FrMorisonElement::SetFrame, FrMorisonSingleElement constructors", "src/frydom/hydrodynamics/morison/FrMorisonModel.h"]}
{"id": "C159", "title": "Law of Morison for one tube", "statement": "For every attitude and motion of the body the force of a tube is the quadratic drag across and along the tube axes plus the inertia forces if enabled, for the water velocity (waves, current if included) relative to the point of the body at the middle of the tube, applied at that point; the axes are those of the tube when the body is not turned.", "quantifier": "every sea, attitude, motion, coefficients", "why_tests_cant": "Real valued inputs.", "anchors": ["src/frydom/hydrodynamics/morison/FrMorisonModel.cpp: GetFlowVelocity, GetFlowAcceleration, Update", "src/frydom/hydrodynamics/morison/FrMorisonForce.cpp: Compute"]}
{"id": "C160", "title": "A composite model applies the sum of its elements", "statement": "Whatever the nesting, the wrench of a composite model is the sum of the wrenches of its tubes, and it can be computed whenever all nodes exist.", "quantifier": "every tree of elements", "why_tests_cant": "Trees of any depth.", "anchors": ["src/frydom/hydrodynamics/morison/FrMorisonModel.cpp: FrMorisonCompositeElement::AddElement, Initialize, Update", "src/frydom/hydrodynamics/morison/FrMorisonModel.h: SetIncludeCurrent, SetExtendedModel", "src/frydom/hydrodynamics/morison/FrMorisonModel.cpp: GetFlowVelocity, GetFlowAcceleration, Update", "src/frydom/hydrodynamics/morison/FrMorisonForce.cpp: Compute"]}
{"id": "C161", "title": "Morison drag is passive", "statement": "In water at rest, without inertia forces, a model never gives power to its body.", "quantifier": "every model, attitude, rigid motion", "why_tests_cant": "All attitudes and motions.", "anchors": ["src/frydom/hydrodynamics/morison/FrMorisonModel.cpp: GetFlowVelocity, GetFlowAcceleration, Update", "src/frydom/hydrodynamics/morison/FrMorisonForce.cpp: Compute"]}
{"id": "C162", "title": "The number of elements of a division does not matter in uniform flow", "statement": "A tube divided into n elements in uniform water, on a body without rotation speed, applies the wrench of the whole tube at its middle, for every n.", "quantifier": "every n >= 1, tube, later history of the body", "why_tests_cant": "Unbounded n.", "anchors": ["src/frydom/hydrodynamics/morison/FrMorisonModel.cpp: FrMorisonCompositeElement::AddElement, Initialize, Update", "src/frydom/hydrodynamics/morison/FrMorisonModel.h: SetIncludeCurrent, SetExtendedModel"]}
{"id": "C163", "title": "The force of a tube follows the attitude of the body", "statement": "On a turned body the force is that of the tube in its actual direction in the world.", "quantifier": "every attitude", "why_tests_cant": "Needs a turned body with a tube that is not isotropic.", "anchors": ["src/frydom/hydrodynamics/morison/FrMorisonModel.cpp: GetFlowVelocity, GetFlowAcceleration, Update", "src/frydom/hydrodynamics/morison/FrMorisonForce.cpp: Compute"]}
{"id": "C164", "title": "Including the current in a composite model", "statement": "SetIncludeCurrent(true) on a model includes the current in the forces of its elements.", "quantifier": "every model", "why_tests_cant": "Depends on uninitialised memory.", "anchors": ["src/frydom/hydrodynamics/morison/FrMorisonModel.cpp: FrMorisonCompositeElement::AddElement, Initialize, Update", "src/frydom/hydrodynamics/morison/FrMorisonModel.h: SetIncludeCurrent, SetExtendedModel"]}
{"id": "C165", "title": "Every reference direction gives a tube", "statement": "A tube can be built for every reference direction, the default axis being used when it is parallel to the tube.", "quantifier": "every tube", "why_tests_cant": "Needs a tube along x and a parallel reference.", "anchors": ["src/frydom/hydrodynamics/morison/FrMorisonModel.cpp: FrMorisonElement::SetFrame, FrMorisonSingleElement constructors", "src/frydom/hydrodynamics/morison/FrMorisonModel.h"]}
{"id": "C166", "title": "Inertia force of an accelerated body", "statement": "A body accelerating in water at rest feels only the added mass of its tubes.", "quantifier": "every acceleration", "why_tests_cant": "The difference is a constant factor.", "anchors": ["src/frydom/hydrodynamics/morison/FrMorisonModel.cpp: GetFlowVelocity, GetFlowAcceleration, Update", "src/frydom/hydrodynamics/morison/FrMorisonForce.cpp: Compute"]}
{"id": "C167", "title": "Properties and options of the elements of a composite", "statement": "Each element has the properties given with it, or the default properties in force when it was added; after initialisation each direct element has the inertia option of the composite.", "quantifier": "every history of operations on the composite", "why_tests_cant": "Unbounded histories.", "anchors": ["src/frydom/hydrodynamics/morison/FrMorisonModel.cpp: FrMorisonCompositeElement::AddElement, Initialize, Update", "src/frydom/hydrodynamics/morison/FrMorisonModel.h: SetIncludeCurrent, SetExtendedModel"]}
{"id": "C168", "title": "The inertia option reaches nested composites", "statement": "SetExtendedModel(true) on a model enables the inertia forces of all its tubes.", "quantifier": "every nesting", "why_tests_cant": "Needs two levels of nesting.", "anchors": ["src/frydom/hydrodynamics/morison/FrMorisonModel.cpp: FrMorisonCompositeElement::AddElement, Initialize, Update", "src/frydom/hydrodynamics/morison/FrMorisonModel.h: SetIncludeCurrent, SetExtendedModel"]}
{"id": "C169", "title": "A round tube has isotropic drag", "statement": "With equal coefficients in both directions the drag of a tube does not depend on the reference direction and is along the flow across the tube.", "quantifier": "every flow direction", "why_tests_cant": "Needs an oblique flow.", "anchors": ["src/frydom/hydrodynamics/morison/FrMorisonModel.cpp: GetFlowVelocity, GetFlowAcceleration, Update", "src/frydom/hydrodynamics/morison/FrMorisonForce.cpp: Compute"]}
{"id": "C170", "title": "Relative frames of the nodes of a link", "statement": "The frame of node 2 with respect to node 1, and the inverse one, carry the axes of one node to the other; the relative positions read in NWU or NED are those of the nodes.", "quantifier": "every pair of reachable bodies and nodes", "why_tests_cant": "Real valued states, unbounded histories of the bodies.", "anchors": ["src/frydom/core/link/links_lib/FrLink.cpp: FrLinkLock::GenerateCache", "src/frydom/core/link/links_lib/FrLink.h"]}
{"id": "C171", "title": "Relative velocities of the nodes of a link", "statement": "The velocity of node 2 seen from node 1 is that of the point of body 2 minus that of the point of body 1 at the same place, in the axes of node 1; the angular velocities are opposite; the velocity of node 1 seen from node 2 is right when the bodies have the same angular velocity.", "quantifier": "every rigid motion of the two bodies", "why_tests_cant": "Real valued states.", "anchors": ["src/frydom/core/link/links_lib/FrLink.cpp: FrLinkLock::GenerateCache", "src/frydom/core/link/links_lib/FrLink.h"]}
{"id": "C172", "title": "Velocity of node 1 with respect to node 2", "statement": "It is the velocity of the point of body 1 at node 1 seen from body 2.", "quantifier": "every rigid motion", "why_tests_cant": "Needs a relative rotation and distant nodes.", "anchors": ["src/frydom/core/link/links_lib/FrLink.cpp: FrLinkLock::GenerateCache", "src/frydom/core/link/links_lib/FrLink.h"]}
{"id": "C173", "title": "Relative velocities in NED", "statement": "The relative velocities follow the frame convention asked for.", "quantifier": "both conventions", "why_tests_cant": "Needs a lateral velocity.", "anchors": ["src/frydom/core/link/links_lib/FrLink.cpp: FrLinkLock::GenerateCache", "src/frydom/core/link/links_lib/FrLink.h"]}
{"id": "C174", "title": "Action and reaction in a link", "statement": "The reactions on body 1 and body 2, at their centres of gravity and in their axes, are opposite wrenches, equal to those at the nodes; in NED they are the converted vectors.", "quantifier": "every pair of bodies, nodes and reaction", "why_tests_cant": "Real valued states.", "anchors": ["src/frydom/core/link/links_lib/FrLink.cpp: GetLinkReactionForceOnBody1/2, GetLinkReactionTorqueOnBody1AtCOG/2AtCOG"]}
{"id": "C175", "title": "The angle of a revolute link counts the turns", "statement": "For every history of a joint that turns by less than about half a turn between updates, GetLinkAngle + GetRestAngle is the angle of the joint, whole turns included, whatever rest angles, springs, references and motors are set meanwhile.", "quantifier": "every sequence of updates and operations, every angle", "why_tests_cant": "Unbounded histories and angles.", "anchors": ["src/frydom/core/link/links_lib/FrRevoluteLink.cpp: Update, UpdateForces, UpdateCache, GetLinkAngle, GetNbTurns"]}
{"id": "C176", "title": "Turns and relative angle", "statement": "Relative angle + 2 pi number of turns = link angle.", "quantifier": "every state of the link", "why_tests_cant": "All real angles.", "anchors": ["src/frydom/core/link/links_lib/FrRevoluteLink.cpp: Update, UpdateForces, UpdateCache, GetLinkAngle, GetNbTurns"]}
{"id": "C177", "title": "Rest angle between 0 and pi", "statement": "SetRestAngle(a) makes GetRestAngle() = a.", "quantifier": "every a in [0, pi)", "why_tests_cant": "All real angles.", "anchors": ["src/frydom/core/link/links_lib/FrRevoluteLink.cpp: Update, UpdateForces, UpdateCache, GetLinkAngle, GetNbTurns"]}
{"id": "C178", "title": "Negative rest angles", "statement": "SetRestAngle(a) makes GetRestAngle() = a for negative angles, and the configuration taken as reference has the angle 0.", "quantifier": "every a in (-pi, 0)", "why_tests_cant": "Only for negative angles.", "anchors": ["src/frydom/core/link/links_lib/FrRevoluteLink.cpp: Update, UpdateForces, UpdateCache, GetLinkAngle, GetNbTurns"]}
{"id": "C179", "title": "Spring of a revolute link", "statement": "The torque on node 2 is -(k angle + c angular velocity), zero when motorised; the wrenches on the bodies are opposite; their power is GetLinkPower; GetLinkAngularVelocity is the relative angular velocity along the joint.", "quantifier": "every link state, joint position, motion", "why_tests_cant": "Real valued states.", "anchors": ["src/frydom/core/link/links_lib/FrRevoluteLink.cpp: Update, UpdateForces, UpdateCache, GetLinkAngle, GetNbTurns"]}
{"id": "C180", "title": "Spring of a prismatic link", "statement": "The force on node 2 is -(k (z - rest length) + c velocity) along the joint, zero when motorised; wrenches opposite, power GetLinkPower; rest length and reference as set.", "quantifier": "every link state, joint position, motion", "why_tests_cant": "Real valued states.", "anchors": ["src/frydom/core/link/links_lib/FrPrismaticLink.cpp: Update, UpdateForces, UpdateCache"]}
{"id": "C181", "title": "Clamping a revolute link", "statement": "Clamp holds the joint at its present angle.", "quantifier": "every angle", "why_tests_cant": "Only for negative angles.", "anchors": ["src/frydom/core/link/links_lib/FrRevoluteLink.cpp: Update, UpdateForces, UpdateCache, GetLinkAngle, GetNbTurns"]}
{"id": "C182", "title": "Clamping a prismatic link", "statement": "Clamp holds the joint at its present position.", "quantifier": "every position", "why_tests_cant": "Needs the convention of the motor of the solver.", "anchors": ["src/frydom/core/link/links_lib/FrPrismaticLink.cpp: Update, UpdateForces, UpdateCache", "src/frydom/core/link/links_lib/actuators/FrActuator.cpp", "src/frydom/core/link/links_lib/actuators/FrLinearActuator.cpp", "src/frydom/core/link/links_lib/actuators/FrAngularActuator.cpp"]}
{"id": "C183", "title": "Motor force in NED", "statement": "The force of a motor in a body follows the convention asked for.", "quantifier": "both conventions", "why_tests_cant": "Needs the second convention.", "anchors": ["src/frydom/core/link/links_lib/actuators/FrActuator.cpp", "src/frydom/core/link/links_lib/actuators/FrLinearActuator.cpp", "src/frydom/core/link/links_lib/actuators/FrAngularActuator.cpp"]}
{"id": "C184", "title": "Motor forces on the two bodies", "statement": "The wrenches of the motor on the two bodies are opposite (NWU), the first being that of the motor at node 1.", "quantifier": "every joint position", "why_tests_cant": "Real valued states.", "anchors": ["src/frydom/core/link/links_lib/actuators/FrActuator.cpp", "src/frydom/core/link/links_lib/actuators/FrLinearActuator.cpp", "src/frydom/core/link/links_lib/actuators/FrAngularActuator.cpp"]}
{"id": "C185", "title": "Masks of degrees of freedom", "statement": "After every history of operations the mask blocks what they ask for; the solver gets the same mask; counts agree; each type of link blocks its degrees of freedom.", "quantifier": "every history of operations", "why_tests_cant": "Unbounded histories.", "anchors": ["src/frydom/core/link/links_lib/FrDOFMaskLink.cpp", "src/frydom/core/link/links_lib/FrLink.cpp: FrLinkLockBase::SetLinkType, SetMask"]}
{"id": "C186", "title": "Mask of a type of link", "statement": "A mask set to a type blocks that type, and remembers it.", "quantifier": "every type", "why_tests_cant": "One type is missing.", "anchors": ["src/frydom/core/link/links_lib/FrDOFMaskLink.cpp", "src/frydom/core/link/links_lib/FrLink.cpp: FrLinkLockBase::SetLinkType, SetMask"]}
{"id": "C187", "title": "Disabled and broken links", "statement": "A link that was never breakable never breaks; breaking or disabling makes it inactive; the motor follows SetDisabled; nothing else changes the disabled flag.", "quantifier": "every history of flags", "why_tests_cant": "Unbounded histories.", "anchors": ["src/frydom/core/link/links_lib/FrLink.cpp: SetDisabled, SetBroken, SetBreakable", "src/frydom/core/link/links_lib/actuators/FrActuator.cpp", "src/frydom/core/link/links_lib/actuators/FrLinearActuator.cpp", "src/frydom/core/link/links_lib/actuators/FrAngularActuator.cpp"]}
{"id": "C188", "title": "Motor of a broken link, and of a link motorised twice", "statement": "The motor of a broken link is off, and a link has one motor in the system.", "quantifier": "every history of flags", "why_tests_cant": "Needs particular sequences.", "anchors": ["src/frydom/core/link/links_lib/FrLink.cpp: SetDisabled, SetBroken", "src/frydom/core/link/links_lib/FrRevoluteLink.cpp: Motorize"]}
{"id": "C189", "title": "Planes of a node", "statement": "The intersection of a plane with a line is on both, exists when the line is long enough and not parallel; the closest point is in the plane and no point of the plane is closer; its distance is that of GetDistanceToPointInWorld.", "quantifier": "every node, axis, point, line, convention", "why_tests_cant": "Real valued geometry, minimum over a plane.", "anchors": ["src/frydom/core/link/constraint/FrCGeometrical.cpp"]}
{"id": "C190", "title": "Signed distance to a plane in NED", "statement": "The signed distance to a plane does not depend on the convention.", "quantifier": "every point", "why_tests_cant": "Needs both conventions.", "anchors": ["src/frydom/core/link/constraint/FrCGeometrical.cpp"]}
{"id": "C191", "title": "Point on a line", "statement": "The free direction of a point on line constraint is the requested axis of the node, at the node.", "quantifier": "every node, every axis", "why_tests_cant": "Real valued attitudes.", "anchors": ["src/frydom/core/link/constraint/FrConstraint.cpp: FrConstraintPointOnLine::Initialize"]}
{"id": "C192", "title": "Locking degrees of freedom of a body", "statement": "The body and the world body each get a node at the centre of gravity with the axes of the body, so that the lock starts satisfied; nothing moves.", "quantifier": "every reachable body", "why_tests_cant": "Unbounded histories of the body.", "anchors": ["src/frydom/core/body/FrBody.cpp: InitializeLockedDOF"]}
{"id": "C193", "title": "Rule of twelfths", "statement": "The tide table of two extrema covers 1, 3, 6, 9, 11 and 12 twelfths of the range after each sixth of the interval, is monotone, never leaves the two heights, and has no value outside.", "quantifier": "every pair of extrema, every instant", "why_tests_cant": "Real valued times and heights.", "anchors": ["src/frydom/environment/ocean/freeSurface/tidal/FrTidalModel.cpp", "src/frydom/environment/ocean/freeSurface/tidal/FrTidalModel.h"]}
{"id": "C194", "title": "Tide labels", "statement": "The heights of a tide are those given, whatever their labels.", "quantifier": "every pair of extrema whose labels disagree with the heights", "why_tests_cant": "Needs inconsistent labels.", "anchors": ["src/frydom/environment/ocean/freeSurface/tidal/FrTidalModel.cpp", "src/frydom/environment/ocean/freeSurface/tidal/FrTidalModel.h"]}
{"id": "C195", "title": "Clock times", "statement": "An accepted clock time reads back the same instant in hours, minutes and seconds.", "quantifier": "every accepted clock time", "why_tests_cant": "All triples.", "anchors": ["src/frydom/environment/ocean/freeSurface/tidal/FrTidalModel.cpp", "src/frydom/environment/ocean/freeSurface/tidal/FrTidalModel.h"]}
{"id": "C196", "title": "Every clock time is accepted", "statement": "The clock times of a day are accepted.", "quantifier": "every hour, minute, second", "why_tests_cant": "All triples.", "anchors": ["src/frydom/environment/ocean/freeSurface/tidal/FrTidalModel.cpp", "src/frydom/environment/ocean/freeSurface/tidal/FrTidalModel.h"]}
{"id": "C197", "title": "Height of a tide", "statement": "A tide given by two extrema has a height.", "quantifier": "every pair of extrema", "why_tests_cant": "Needs the frame that is never created.", "anchors": ["src/frydom/environment/ocean/freeSurface/tidal/FrTidalModel.cpp", "src/frydom/environment/ocean/freeSurface/tidal/FrTidalModel.h"]}
{"id": "C198", "title": "Free surface", "statement": "The position of the free surface at a point is the elevation of the current wave field at the time of the last update, consistently in both conventions; zero without waves and once hidden.", "quantifier": "every history of calls on the environment, every point", "why_tests_cant": "Unbounded histories.", "anchors": ["src/frydom/environment/ocean/freeSurface/FrFreeSurface.cpp", "src/frydom/environment/ocean/freeSurface/waves/FrWaveField.cpp", "src/frydom/environment/FrEnvironment.cpp"]}
{"id": "C199", "title": "Seabed", "statement": "Depth and bathymetry are those of the last call that set them in either convention; hidden is infinite; after initialisation time steps never stop the program.", "quantifier": "every history", "why_tests_cant": "Unbounded histories.", "anchors": ["src/frydom/environment/ocean/seabed/FrSeabed.cpp", "src/frydom/environment/ocean/FrOcean.cpp: GetDepth, ShowSeabed, Update, Initialize"]}
{"id": "C200", "title": "Depth in NED", "statement": "The depth of the sea does not depend on the convention asked for.", "quantifier": "every history", "why_tests_cant": "All states.", "anchors": ["src/frydom/environment/ocean/seabed/FrSeabed.cpp", "src/frydom/environment/ocean/FrOcean.cpp: GetDepth, ShowSeabed, Update, Initialize"]}
{"id": "C201", "title": "Showing the seabed", "statement": "Showing the seabed keeps its bathymetry.", "quantifier": "every history", "why_tests_cant": "Unbounded histories.", "anchors": ["src/frydom/environment/ocean/seabed/FrSeabed.cpp", "src/frydom/environment/ocean/FrOcean.cpp: GetDepth, ShowSeabed, Update, Initialize"]}
{"id": "C202", "title": "Hiding the seabed during a simulation", "statement": "Hiding the seabed does not stop the program.", "quantifier": "every initialised history", "why_tests_cant": "Needs the order of calls.", "anchors": ["src/frydom/environment/ocean/seabed/FrSeabed.cpp", "src/frydom/environment/ocean/FrOcean.cpp: GetDepth, ShowSeabed, Update, Initialize"]}
{"id": "C203", "title": "Fluid properties", "statement": "Each property of water and air, and gravity, is what the last call on it gave, or its default, whatever the other calls.", "quantifier": "every history", "why_tests_cant": "Unbounded histories.", "anchors": ["src/frydom/environment/ocean/FrOcean.cpp", "src/frydom/environment/atmosphere/FrAtmosphere.cpp"]}
{"id": "C204", "title": "Reynolds and Froude numbers", "statement": "Re = |V| L / nu and Fr = |V| / sqrt(g L); they are even, proportional to the speed and Re^2 nu^2 = Fr^2 g L^3.", "quantifier": "every velocity and length", "why_tests_cant": "Real valued inputs.", "anchors": ["src/frydom/environment/ocean/FrOcean.cpp", "src/frydom/environment/atmosphere/FrAtmosphere.cpp"]}
{"id": "C205", "title": "Viscosities stay consistent", "statement": "The kinematic viscosity is the ratio of the dynamic one and the density, for both fluids.", "quantifier": "every history", "why_tests_cant": "Unbounded histories.", "anchors": ["src/frydom/environment/ocean/FrOcean.cpp", "src/frydom/environment/atmosphere/FrAtmosphere.cpp"]}
{"id": "C206", "title": "Fluid at a point", "statement": "A point is in the air when above the free surface (to within 2^-52) and in the water otherwise, in both conventions.", "quantifier": "every history, every point", "why_tests_cant": "Real valued positions.", "anchors": ["src/frydom/environment/FrEnvironment.cpp: GetFluidTypeAtPointInWorld, GetFluidDensity"]}
{"id": "C207", "title": "Time service", "statement": "The time service reads the start plus the simulation time of the last update rounded down to a millisecond: no drift, monotone.", "quantifier": "every start, every sequence of updates", "why_tests_cant": "Unbounded number of steps.", "anchors": ["src/frydom/environment/time/FrTimeServices.cpp"]}
{"id": "C208", "title": "Starting time", "statement": "A starting day and time set by numbers, duration or zoned instant reads back, with the year of that date.", "quantifier": "every valid date and time", "why_tests_cant": "All dates.", "anchors": ["src/frydom/environment/time/FrTimeServices.cpp"]}
{"id": "C209", "title": "Time in a zone", "statement": "The time read in a zone is the UTC instant converted to that zone.", "quantifier": "every zone table", "why_tests_cant": "Needs zones with offsets.", "anchors": ["src/frydom/environment/time/FrTimeServices.cpp"]}
{"id": "C210", "title": "Time zone clock", "statement": "Set in UTC it reads the given date plus the simulation time; in local mode the local clock does, and the update throws exactly when the local time is missing or ambiguous.", "quantifier": "every zone table, every update", "why_tests_cant": "All zone tables.", "anchors": ["src/frydom/environment/time/FrTimeZone.cpp", "src/frydom/environment/time/FrTimeZone.h"]}
{"id": "C211", "title": "UTC in local mode", "statement": "In local mode the UTC time advances with the simulation.", "quantifier": "zones with a clock change", "why_tests_cant": "Needs a clock change.", "anchors": ["src/frydom/environment/time/FrTimeZone.cpp", "src/frydom/environment/time/FrTimeZone.h"]}
{"id": "C212", "title": "Order of the setters of the time zone", "statement": "The day set is kept whatever the order of the setters.", "quantifier": "every day and time", "why_tests_cant": "Orders of calls.", "anchors": ["src/frydom/environment/time/FrTimeZone.cpp", "src/frydom/environment/time/FrTimeZone.h"]}
{"id": "C213", "title": "Broken-down time", "statement": "The broken-down times are the Gregorian date and clock of the instant, fields in range, and convert back to the same second.", "quantifier": "every instant", "why_tests_cant": "Unbounded dates.", "anchors": ["src/frydom/environment/time/FrTimeZone.cpp", "src/frydom/environment/time/FrTimeZone.h"]}
{"id": "C214", "title": "Cartesian positions", "statement": "They are those of the tangent frame at the origin; conventions agree; distances do not depend on the origin; east is east and north is north.", "quantifier": "every origin and point", "why_tests_cant": "Real valued coordinates.", "anchors": ["src/frydom/environment/geographicServices/FrGeographicServices.cpp"]}
{"id": "C215", "title": "Geographic origin", "statement": "The origin reads back with the longitude in [-180,180); longitudes matter modulo 360; impossible latitudes are refused.", "quantifier": "every origin", "why_tests_cant": "Real valued.", "anchors": ["src/frydom/environment/geographicServices/FrGeographicServices.cpp"]}
{"id": "C216", "title": "Round trip", "statement": "Geographic to cartesian and back is the identity, wherever the library's inverse is one; positions do not depend on the convention.", "quantifier": "every origin and point", "why_tests_cant": "Real valued.", "anchors": ["src/frydom/environment/geographicServices/FrGeographicServices.cpp"]}
{"id": "C217", "title": "Magnetic field", "statement": "The components are north-west-up or north-east-down ones; the declination is the angle from north to the horizontal field, positive eastward.", "quantifier": "every magnetic model, point, year", "why_tests_cant": "Real valued.", "anchors": ["src/frydom/environment/geographicServices/FrGeographicServices.cpp"]}
{"id": "C218", "title": "Magnetic field in the cartesian frame", "statement": "The components at a cartesian position are in the axes of the cartesian frame.", "quantifier": "every point", "why_tests_cant": "Needs distant points.", "anchors": ["src/frydom/environment/geographicServices/FrGeographicServices.cpp"]}
{"id": "C219", "title": "A static analysis gives the system back", "statement": "The first static analysis gives back the time, the time ramp and the activity of every body, force, link and physics item as they were; it never stops the program and ends within the iterations asked for.", "quantifier": "every system (any bodies, forces, links, items), every dynamics, every setting of the analysis", "why_tests_cant": "Arbitrary systems and dynamics.", "anchors": ["src/frydom/core/statics/FrStaticAnalysis.cpp", "src/frydom/core/statics/FrStaticAnalysis.h", "src/frydom/core/FrOffshoreSystem.cpp: Relax, AdvanceTo, SolveStaticWithRelaxation"]}
{"id": "C220", "title": "Configuration of a static analysis", "statement": "During the analysis the dynamics only runs with every body awake, every link enabled, exactly the forces and items that are part of static analyses active, and a zero time ramp.", "quantifier": "every system, dynamics and setting", "why_tests_cant": "Arbitrary systems and dynamics.", "anchors": ["src/frydom/core/statics/FrStaticAnalysis.cpp", "src/frydom/core/statics/FrStaticAnalysis.h", "src/frydom/core/FrOffshoreSystem.cpp: Relax, AdvanceTo, SolveStaticWithRelaxation"]}
{"id": "C221", "title": "Verdict of a static analysis", "statement": "A successful analysis ends with a residual below the tolerance, in the third iteration or later; the bodies stay where they were; without relaxation each moves slower than the tolerance, with velocity relaxation all bodies are at rest.", "quantifier": "every system, dynamics and setting with a non-negative time step", "why_tests_cant": "Arbitrary dynamics.", "anchors": ["src/frydom/core/statics/FrStaticAnalysis.cpp", "src/frydom/core/statics/FrStaticAnalysis.h", "src/frydom/core/FrOffshoreSystem.cpp: Relax, AdvanceTo, SolveStaticWithRelaxation"]}
{"id": "C222", "title": "Activities changed between two analyses", "statement": "A second static analysis gives back the activities that were there before it.", "quantifier": "every system, two analyses", "why_tests_cant": "Histories.", "anchors": ["src/frydom/core/statics/FrStaticAnalysis.cpp", "src/frydom/core/statics/FrStaticAnalysis.h", "src/frydom/core/FrOffshoreSystem.cpp: Relax, AdvanceTo, SolveStaticWithRelaxation"]}
{"id": "C223", "title": "Fixed bodies and broken links across an analysis", "statement": "A body that was fixed and a link that was broken before the analysis become active again when released or repaired after it.", "quantifier": "every system", "why_tests_cant": "Arbitrary systems.", "anchors": ["src/frydom/core/statics/FrStaticAnalysis.cpp", "src/frydom/core/statics/FrStaticAnalysis.h", "src/frydom/core/FrOffshoreSystem.cpp: Relax, AdvanceTo, SolveStaticWithRelaxation", "src/frydom/core/link/links_lib/FrLink.cpp: SetDisabled, SetBroken, IsActive, SetBreakable", "src/frydom/core/link/links_lib/actuators/FrActuator.cpp"]}
{"id": "C224", "title": "Number of iterations", "statement": "An analysis with at least one iteration can succeed, and every analysis ends.", "quantifier": "every system, dynamics, setting", "why_tests_cant": "Non termination is not observable by a test.", "anchors": ["src/frydom/core/statics/FrStaticAnalysis.cpp", "src/frydom/core/statics/FrStaticAnalysis.h", "src/frydom/core/FrOffshoreSystem.cpp: Relax, AdvanceTo, SolveStaticWithRelaxation"]}
{"id": "C225", "title": "Disabling and breaking links", "statement": "Disabling then enabling a link, or breaking then repairing it, gives it back with its motor; an unbreakable link ignores the order to break.", "quantifier": "every link state", "why_tests_cant": "All flag combinations.", "anchors": ["src/frydom/core/link/links_lib/FrLink.cpp: SetDisabled, SetBroken, IsActive, SetBreakable", "src/frydom/core/link/links_lib/actuators/FrActuator.cpp"]}
{"id": "C226", "title": "Motor of an inactive link", "statement": "The motor of an inactive link does not run.", "quantifier": "every motorised link", "why_tests_cant": "Orders of calls.", "anchors": ["src/frydom/core/link/links_lib/FrLink.cpp: SetDisabled, SetBroken, IsActive, SetBreakable", "src/frydom/core/link/links_lib/actuators/FrActuator.cpp"]}
{"id": "C227", "title": "Mass and inertia of simple solids", "statement": "A box, a cylinder, a sphere and a mooring buoy have the mass, centre of gravity and inertia of the homogeneous solid of their dimensions.", "quantifier": "every dimension, mass, previous state of the body", "why_tests_cant": "Real valued; needs the integrals of the solid.", "anchors": ["src/frydom/core/body/FrBodyEasy.cpp", "src/frydom/asset/shape/FrBoxShape.cpp", "src/frydom/asset/shape/FrCylinderShape.cpp", "src/frydom/asset/shape/FrSphereShape.cpp", "src/frydom/cable/FrMooringBuoy.cpp"]}
{"id": "C228", "title": "Collision and visual shapes of simple solids", "statement": "The solid that collides is the solid that is shown, with the dimensions asked for; a second call replaces the collision shape and keeps the old visual one.", "quantifier": "every dimension, every point", "why_tests_cant": "All points.", "anchors": ["src/frydom/core/body/FrBodyEasy.cpp", "src/frydom/asset/shape/FrBoxShape.cpp", "src/frydom/asset/shape/FrCylinderShape.cpp", "src/frydom/asset/shape/FrSphereShape.cpp"]}
{"id": "C229", "title": "Volume and push of the mooring buoy", "statement": "The volume after an update is that of the part of the ball below the water surface at its centre, between none and the whole ball, monotone; the force at the next update at the same place is the weight of the displaced water.", "quantifier": "every radius, history of situations", "why_tests_cant": "Real valued, histories.", "anchors": ["src/frydom/cable/FrMooringBuoy.cpp", "src/frydom/cable/FrMooringBuoy.h", "src/frydom/core/body/FrBody.cpp: FrBodyBase::Update"]}
{"id": "C230", "title": "The push of the mooring buoy is the current one", "statement": "The hydrostatic force of the buoy is the weight of the water displaced at its current place.", "quantifier": "every history", "why_tests_cant": "Histories.", "anchors": ["src/frydom/cable/FrMooringBuoy.cpp", "src/frydom/cable/FrMooringBuoy.h", "src/frydom/core/body/FrBody.cpp: FrBodyBase::Update"]}
{"id": "C231", "title": "A cartesian grid asset tiles its rectangle", "statement": "The mesh of a cartesian grid tiles, without hole or overlap and with all faces seen from the same side, the rectangle made of the whole steps that fit in the domain, at the height of the grid.", "quantifier": "every domain and step", "why_tests_cant": "All points of a continuous domain, any number of cells.", "anchors": ["src/frydom/asset/FrGridAsset.cpp: BuildRectangularMeshGrid, BuildPolarMeshGrid", "src/frydom/mesh/FrTriangleMeshConnected.cpp"]}
{"id": "C232", "title": "A polar grid asset tiles its polygon", "statement": "The mesh of a polar grid tiles the regular polygon inscribed in the circle of the diameter asked for.", "quantifier": "every centre, diameter, number of radii and angles", "why_tests_cant": "All points of a continuous domain, any number of sectors.", "anchors": ["src/frydom/asset/FrGridAsset.cpp: BuildRectangularMeshGrid, BuildPolarMeshGrid", "src/frydom/mesh/FrTriangleMeshConnected.cpp"]}
{"id": "C233", "title": "Height of a polar grid", "statement": "The vertices of a grid are at the height of the grid.", "quantifier": "every polar grid", "why_tests_cant": "All grids.", "anchors": ["src/frydom/asset/FrGridAsset.cpp: BuildRectangularMeshGrid, BuildPolarMeshGrid", "src/frydom/mesh/FrTriangleMeshConnected.cpp", "src/frydom/asset/FrSeabedGridAsset.cpp"]}
{"id": "C234", "title": "Extent of a cartesian grid", "statement": "The grid covers the domain asked for.", "quantifier": "every domain and step", "why_tests_cant": "All grids.", "anchors": ["src/frydom/asset/FrGridAsset.cpp: BuildRectangularMeshGrid, BuildPolarMeshGrid", "src/frydom/mesh/FrTriangleMeshConnected.cpp"]}
{"id": "C235", "title": "The drawn free surface is current", "statement": "With an update every n steps the drawn surface is, after any number of steps, the free surface of the last multiple of n; a hidden grid never stops the program.", "quantifier": "every free surface, n, history", "why_tests_cant": "Histories.", "anchors": ["src/frydom/asset/FrFreeSurfaceGridAsset.cpp: StepFinalize", "src/frydom/asset/FrGridAsset.cpp: Initialize, SetGrid, SetUpdateStep, SetNoGrid"]}
{"id": "C236", "title": "Drawing of a catenary line", "statement": "A line drawn in n elements is n segments end to end from its start to its end, equally spaced, coloured by the tension in their middle on the scale chosen, and follows the line.", "quantifier": "every line, number of elements, scale", "why_tests_cant": "Real valued positions and tensions.", "anchors": ["src/frydom/asset/FrCatenaryLineAsset.cpp: Initialize, StepFinalize, InitRangeTensionColor"]}
{"id": "C237", "title": "A line drawn with one element", "statement": "A line can be drawn with any positive number of elements.", "quantifier": "every line", "why_tests_cant": "All lines.", "anchors": ["src/frydom/asset/FrCatenaryLineAsset.cpp: Initialize, StepFinalize, InitRangeTensionColor"]}
{"id": "C238", "title": "Assets of an object", "statement": "Every drawing is shown as many times as it was added and not removed since the last RemoveAssets; a removal is valid exactly when the asset is shown.", "quantifier": "every history of calls", "why_tests_cant": "Histories.", "anchors": ["src/frydom/asset/FrAssetOwner.cpp"]}
{"id": "C239", "title": "Shapes listed by an object", "statement": "The shapes listed by the getters are those that are shown.", "quantifier": "every history", "why_tests_cant": "Histories.", "anchors": ["src/frydom/asset/FrAssetOwner.cpp"]}
{"id": "C240", "title": "Incremental mesh files", "statement": "Meshes written one after the other go to different numbered files, which keep them; other files do not change.", "quantifier": "every base name, extension, counter, number of meshes", "why_tests_cant": "All names; decimal writing must be injective.", "anchors": ["src/frydom/mesh/FrIncrementalMeshWriter.cpp"]}
{"id": "C241", "title": "Meshes of two base names", "statement": "Files written under another base name do not overwrite the previous ones.", "quantifier": "every pair of names", "why_tests_cant": "All names.", "anchors": ["src/frydom/mesh/FrIncrementalMeshWriter.cpp"]}
{"id": "C242", "title": "Loading polar coefficients", "statement": "A complete file of polar flow coefficients is loaded row by row.", "quantifier": "every file", "why_tests_cant": "All files.", "anchors": ["src/frydom/IO/FrLoader.cpp: LoadFlowPolarCoeffFromJson"]}
{"id": "C243", "title": "Faulty files of polar coefficients", "statement": "A faulty file is reported.", "quantifier": "every file", "why_tests_cant": "All files.", "anchors": ["src/frydom/IO/FrLoader.cpp: LoadFlowPolarCoeffFromJson"]}
{"id": "C244", "title": "Constraint between two hydrodynamically coupled bodies", "statement": "Eq_a, Eq_b and g of a constraint are the accelerations of the two bodies, in the coupled equations of motion of all bodies, under a unit reaction, and the acceleration along the constraint plus the compliance.", "quantifier": "every fleet, constraint, jacobian", "why_tests_cant": "Any number of bodies, real valued.", "anchors": ["src/frydom/core/link/constraint/FrConstraintTwoBodiesBase.cpp: Update_auxiliary", "src/frydom/hydrodynamics/seakeeping/linear/radiation/FrVariablesBEMBodyBase.cpp", "src/frydom/core/link/FrLinkMaskBase.cpp"]}
{"id": "C245", "title": "Reactions and added masses", "statement": "Reactions of constraints act on all bodies through the added masses, once.", "quantifier": "every fleet and constraint", "why_tests_cant": "Any number of bodies.", "anchors": ["src/frydom/core/link/constraint/FrConstraintTwoBodiesBase.cpp: Update_auxiliary", "src/frydom/hydrodynamics/seakeeping/linear/radiation/FrVariablesBEMBodyBase.cpp", "src/frydom/core/link/FrLinkMaskBase.cpp"]}
{"id": "C246", "title": "Initial mesh of a slack dynamic cable", "statement": "A dynamic cable longer than the distance of its ends starts as a chain of elements whose nodes are at equal steps of arc length on the catenary that joins the ends, with right handed axes along its tension.", "quantifier": "every cable, ends, line, number of elements", "why_tests_cant": "Any number of nodes, real positions.", "anchors": ["src/frydom/cable/FrDynamicCable.cpp", "src/frydom/cable/FrDynamicCable.h"]}
{"id": "C247", "title": "Initial mesh of a taut dynamic cable", "statement": "A cable shorter than the distance of its ends starts as a straight chain between its ends.", "quantifier": "every cable, ends", "why_tests_cant": "All ends.", "anchors": ["src/frydom/cable/FrDynamicCable.cpp", "src/frydom/cable/FrDynamicCable.h"]}
{"id": "C248", "title": "Reading along a dynamic cable", "statement": "Position and tension at an abscissa of the cable are those of the element that holds it at its place there; at a node, those of the node.", "quantifier": "every cable, abscissa, convention, deformed state", "why_tests_cant": "All real abscissas.", "anchors": ["src/frydom/cable/FrDynamicCable.cpp", "src/frydom/cable/FrDynamicCable.h"]}
{"id": "C249", "title": "Reading beyond the end of a dynamic cable", "statement": "Beyond its end a cable reads as at its end.", "quantifier": "every cable, abscissa", "why_tests_cant": "All abscissas.", "anchors": ["src/frydom/cable/FrDynamicCable.cpp", "src/frydom/cable/FrDynamicCable.h"]}
{"id": "C250", "title": "Target length of the elements", "statement": "A target length for the elements gives elements of about that length.", "quantifier": "every cable and target", "why_tests_cant": "All lengths.", "anchors": ["src/frydom/cable/FrDynamicCable.cpp", "src/frydom/cable/FrDynamicCable.h"]}
{"id": "C251", "title": "Hinges of a dynamic cable", "statement": "The hinges lock the position of the ends (except NONE) and their rotation (CONSTRAINED only).", "quantifier": "every cable, pair of types", "why_tests_cant": "All cables.", "anchors": ["src/frydom/cable/FrDynamicCable.cpp", "src/frydom/cable/FrDynamicCable.h"]}
{"id": "C252", "title": "Breaking tension of a dynamic cable", "statement": "The breaking tension given is kept, else 1.2 times the initial largest tension is used; initialising twice is the same as once.", "quantifier": "every cable", "why_tests_cant": "All cables.", "anchors": ["src/frydom/cable/FrDynamicCable.cpp", "src/frydom/cable/FrDynamicCable.h"]}
{"id": "C253", "title": "Drawing sizes of a dynamic cable", "statement": "The sizes given for drawing are read back.", "quantifier": "every cable and size", "why_tests_cant": "All sizes.", "anchors": ["src/frydom/cable/FrDynamicCable.cpp", "src/frydom/cable/FrDynamicCable.h"]}
{"id": "C254", "title": "Static residual of a dynamic cable", "statement": "The residual of the static search is null exactly when all nodes are at rest.", "quantifier": "every list of speeds", "why_tests_cant": "Any number of nodes.", "anchors": ["src/frydom/cable/FrDynamicCable.cpp", "src/frydom/cable/FrDynamicCable.h"]}
{"id": "C255", "title": "Registries and initialisation of a dynamic cable", "statement": "Initialising a slack dynamic cable leaves the lists of the system and of the bodies as they were, any number of times.", "quantifier": "every system, bodies, cables", "why_tests_cant": "All states of the registries.", "anchors": ["src/frydom/cable/FrDynamicCable.cpp", "src/frydom/cable/FrDynamicCable.h", "src/frydom/logging/FrPathManager.h: RegisterTreeNode", "src/frydom/cable/FrCatenaryLine.cpp: Initialize"]}
{"id": "C256", "title": "Unrolling a dynamic cable", "statement": "An unrolling speed changes the length of the cable.", "quantifier": "every cable, speed, history", "why_tests_cant": "Histories.", "anchors": ["src/frydom/cable/FrDynamicCable.cpp", "src/frydom/cable/FrDynamicCable.h", "src/frydom/cable/FrCable.cpp"]}
{"id": "C257", "title": "Polynomial functions", "statement": "A polynomial made of a constant and added terms has the value and the derivatives of the polynomial of its terms, whatever was asked before.", "quantifier": "every list of terms, history of queries, abscissa", "why_tests_cant": "Any number of terms, histories, real abscissas.", "anchors": ["src/frydom/core/math/functions/lib/FrPolynomialFunction.cpp", "src/frydom/core/math/functions/lib/FrPowFunction.cpp", "src/frydom/core/math/functions/FrFunctionBase.cpp: operator+="]}
{"id": "C258", "title": "Second derivative of a polynomial at zero", "statement": "The second derivative of a polynomial is a number everywhere.", "quantifier": "every power and abscissa", "why_tests_cant": "All powers and abscissas.", "anchors": ["src/frydom/core/math/functions/lib/FrPolynomialFunction.cpp", "src/frydom/core/math/functions/lib/FrPowFunction.cpp", "src/frydom/core/math/functions/FrFunctionBase.cpp: operator+="]}
{"id": "C259", "title": "Adding a term after a query", "statement": "A term added is seen by the next query.", "quantifier": "every history", "why_tests_cant": "Histories.", "anchors": ["src/frydom/core/math/functions/lib/FrPolynomialFunction.cpp", "src/frydom/core/math/functions/lib/FrPowFunction.cpp", "src/frydom/core/math/functions/FrFunctionBase.cpp: operator+="]}
{"id": "C260", "title": "Creating a directory", "statement": "mkdir makes the directory and its missing ancestors, and nothing else; doing it again changes nothing.", "quantifier": "every tree of files and path", "why_tests_cant": "Any depth.", "anchors": ["src/frydom/utils/FrFileSystem.cpp: mkdir"]}
{"id": "C261", "title": "mkdir over a file", "statement": "When mkdir returns true the directory exists.", "quantifier": "every tree of files and path", "why_tests_cant": "All trees.", "anchors": ["src/frydom/utils/FrFileSystem.cpp: mkdir"]}
{"id": "C262", "title": "Reading arrays from HDF5", "statement": "An array written by rows is read back with the same rows and the same size, a list as one column; what is not a dataset, or has more than two dimensions, raises an exception.", "quantifier": "every file, array and list", "why_tests_cant": "Any size.", "anchors": ["src/frydom/IO/FrHDF5.cpp: ReadDoubleArray, ReadIntArray", "src/frydom/IO/FrHDF5.h"]}
{"id": "C263", "title": "Reading the columns of an array", "statement": "ReadDoubleArraySTD gives the columns of an array.", "quantifier": "every file and array", "why_tests_cant": "Any size.", "anchors": ["src/frydom/IO/FrHDF5.cpp: ReadDoubleArraySTD, ReadIntArraySTD"]}
{"id": "C264", "title": "Reading the integers of an array", "statement": "ReadIntArraySTD gives the integers of an array.", "quantifier": "every file and array", "why_tests_cant": "Any size.", "anchors": ["src/frydom/IO/FrHDF5.cpp: ReadDoubleArraySTD, ReadIntArraySTD"]}
{"id": "C265", "title": "Testing that a link exists", "statement": "GroupExist tells whether a path exists, when its parents exist.", "quantifier": "every file and path", "why_tests_cant": "Any depth.", "anchors": ["src/frydom/IO/FrHDF5.cpp: GroupExist"]}
{"id": "C266", "title": "Testing a path below a missing group", "statement": "GroupExist is true only of paths that exist.", "quantifier": "every file and path", "why_tests_cant": "Any depth.", "anchors": ["src/frydom/IO/FrHDF5.cpp: GroupExist"]}
{"id": "C267", "title": "Files closed by the reader", "statement": "A reader whose files are closed before they are replaced leaves no file open once destroyed.", "quantifier": "every history of openings and closings", "why_tests_cant": "Histories.", "anchors": ["src/frydom/IO/FrHDF5.cpp: constructors, destructor, SetFilename, Close"]}
{"id": "C268", "title": "Files replaced in the reader", "statement": "A reader leaves no file open once destroyed, whatever its history.", "quantifier": "every history", "why_tests_cant": "Histories.", "anchors": ["src/frydom/IO/FrHDF5.cpp: constructors, destructor, SetFilename, Close"]}
{"id": "C269", "title": "Folders of the configuration", "statement": "The folders are those of the configuration file of the current directory, else of the home directory; a missing key gives an empty folder.", "quantifier": "every content of the files", "why_tests_cant": "All contents.", "anchors": ["src/frydom/utils/FrConfig.cpp", "src/frydom/utils/FrConfig.h", "src/frydom/core/FrOffshoreSystem.h: m_config_file"]}
{"id": "C270", "title": "Absence of configuration", "statement": "Without configuration file the folders are the current directory.", "quantifier": "every tree of files", "why_tests_cant": "All trees.", "anchors": ["src/frydom/utils/FrConfig.cpp", "src/frydom/utils/FrConfig.h", "src/frydom/core/FrOffshoreSystem.h: m_config_file"]}
{"id": "C271", "title": "Destination of the events", "statement": "With one system at a time, each event from the current level on is written once, in order, in the events file of that system, on the console when there is none.", "quantifier": "every history of systems, levels and events", "why_tests_cant": "Histories.", "anchors": ["src/frydom/logging/FrEventLogger.cpp", "src/frydom/logging/FrEventLogger.h", "src/frydom/logging/FrLogManager.cpp: constructor, destructor"]}
{"id": "C272", "title": "Several systems at the same time", "statement": "Systems can be created while others exist.", "quantifier": "every history", "why_tests_cant": "Histories.", "anchors": ["src/frydom/logging/FrEventLogger.cpp", "src/frydom/logging/FrEventLogger.h", "src/frydom/logging/FrLogManager.cpp: constructor, destructor"]}
{"id": "C273", "title": "Level of the events", "statement": "The level asked for stays until another one is asked for.", "quantifier": "every history", "why_tests_cant": "Histories.", "anchors": ["src/frydom/logging/FrEventLogger.cpp", "src/frydom/logging/FrEventLogger.h", "src/frydom/logging/FrLogManager.cpp: constructor, destructor"]}
{"id": "C274", "title": "Text of the events", "statement": "The text of an event is the type and the name of the object, then the message with its arguments.", "quantifier": "every type, name, message, arguments", "why_tests_cant": "All texts.", "anchors": ["src/frydom/logging/FrEventLogger.h: PreFormat, debug, info, warn, error, critical"]}
