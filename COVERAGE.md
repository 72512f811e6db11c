# What is modelled

Made by `tools/coverage.py` from the comments of the model files. The definitions cite lines; this is the list of files.

## AmModel.v

Model of the added mass of bodies in a hydrodynamic database: FrRadiationModelBase and FrVariablesBEMBodyBase (/repo/src/frydom/hydrodynamics/seakeeping/linear/radiation/FrRadiationModelBase.cpp and FrVariablesBEMBodyBase.cpp) and the parts of FrBodyBase that call them (core/body/FrBody.cpp 131-175). BEM bodies are numbers as in RadModel; the mapper sends BEM body i to body i (C79), and GetNbMappings is the number of pairs the loops go over. Chrono: fb and qb are the force and speed vectors of six components of the variables of a body (linear part in world axes, angular part in body axes), Equals compares element by element. MatrixMN::Inverse is not in the repository: it is the parameter inv, None for a singular matrix. A vector of six components or of the whole system is a function of the index. Sums are written in one order. No proofs.

Files cited or named: `core/body/FrBody.cpp`, `core/body/FrBody.h`, `hydrodynamics/seakeeping/linear/hdb/FrBEMBody.cpp`, `hydrodynamics/seakeeping/linear/hdb/FrBEMBody.h`, `hydrodynamics/seakeeping/linear/radiation/FrRadiationModelBase.cpp`, `hydrodynamics/seakeeping/linear/radiation/FrRadiationModelBase.h`, `hydrodynamics/seakeeping/linear/radiation/FrVariablesBEMBodyBase.cpp`, `hydrodynamics/seakeeping/linear/radiation/FrVariablesBEMBodyBase.h`

## AstModel.v

Model of the visual assets: grids (asset/FrGridAsset.{h,cpp}, FrFreeSurfaceGridAsset.cpp, FrSeabedGridAsset.cpp, mesh/FrTriangleMeshConnected.cpp), catenary lines (asset/FrCatenaryLineAsset.{h,cpp}), the list of assets of an object (asset/FrAssetOwner.cpp), of the incremental mesh writer (mesh/FrIncrementalMeshWriter.{h,cpp}) and of the loader of polar flow coefficients (IO/FrLoader.cpp). Paths are relative to /repo/src/frydom; [double] is modelled by [R], int by [Z] or [nat] without overflow. Contracts: mathutils::linspace (SeaModel); std::to_string is the decimal writing; ChAssets are kept in the order of AddAsset; nlohmann::json: get of a missing or mistyped field throws type_error, which is not a parse_error. Asserts are compiled out; console output is omitted. No proofs in this file, but for a decidable equality.

Files cited or named: `IO/FrLoader.cpp`, `IO/FrLoader.h`, `asset/FrAssetOwner.cpp`, `asset/FrAssetOwner.h`, `asset/FrCatenaryLineAsset.cpp`, `asset/FrCatenaryLineAsset.h`, `asset/FrFreeSurfaceGridAsset.cpp`, `asset/FrFreeSurfaceGridAsset.h`, `asset/FrGridAsset.cpp`, `asset/FrGridAsset.h`, `asset/FrSeabedGridAsset.cpp`, `asset/FrSeabedGridAsset.h`, `mesh/FrIncrementalMeshWriter.cpp`, `mesh/FrIncrementalMeshWriter.h`, `mesh/FrTriangleMeshConnected.cpp`, `mesh/FrTriangleMeshConnected.h`

## BodyModel.v

Model of rigid bodies, nodes and forces: core/body/FrBody.cpp, core/common/FrNode.cpp, core/force/FrForce.cpp. Paths are relative to /repo/src/frydom. The Chrono classes ChBodyAuxRef, ChFrameMoving and ChMarker are third-party code not in /repo; their contracts are written out in the section "Chrono" and belong to the trusted base. Event logging is not modelled. No proofs in this file.

Files cited or named: `core/body/FrBody.cpp`, `core/body/FrBody.h`, `core/common/FrNode.cpp`, `core/common/FrNode.h`, `core/force/FrForce.cpp`, `core/force/FrForce.h`

## CabModel.v

Model of the cables: FrCableProperties and FrCable (cable/FrCable.h, cable/FrCable.cpp), FrCatenaryLine (cable/FrCatenaryLine.h, cable/FrCatenaryLine.cpp) and FrCatenaryForce (cable/FrCatenaryForce.cpp). Paths are relative to /repo/src/frydom. double is modelled by the reals; a division by zero, the logarithm of zero and the inverse of a singular matrix, which give infinities or NaN in the program, have no value in the model ([Undef]). Nodes are represented by the world positions (NWU) they report at the time of the call. mathutils is not in the repository; the contracts used are Inverse() (in place, cofactors over determinant as in Eigen) and infNorm() (greatest absolute value). Assets, logging and the console message about damping are not modelled. No proofs in this file.

Files cited or named: `cable/FrCable.cpp`, `cable/FrCable.h`, `cable/FrCatenaryForce.cpp`, `cable/FrCatenaryForce.h`, `cable/FrCatenaryLine.cpp`, `cable/FrCatenaryLine.h`

## ClipModel.v

Model of the mesh clipper (mesh/FrMeshClipper.{h,cpp}): clipping surfaces, classification of the vertices and faces, projection and splitting, deletion; and of FrHydroMesh::Compute (mesh/FrHydroMesh.cpp). Paths are relative to /repo/src/frydom. [double] is [R]. OpenMesh (third party) is trusted: [split] of an edge with a vertex replaces every face of the edge by two faces, the first keeping the handle of the old face and the second being added at the end of the face list; which half-edge is number 0, and the order in which the circulators visit vertices and half-edges, is left to the parameter [openmesh]. [None] stands for a failed assertion, an endless loop or the read of an uninitialised variable. No proofs in this file.

Files cited or named: `environment/ocean/freeSurface/FrFreeSurface.cpp`, `environment/ocean/freeSurface/FrFreeSurface.h`, `mesh/FrHydroMesh.cpp`, `mesh/FrHydroMesh.h`, `mesh/FrMeshClipper.cpp`, `mesh/FrMeshClipper.h`, `mesh/FrMeshTraits.h`

## ConModel.v

Model of the scalar constraint between two bodies with hydrodynamic coupling: core/link/constraint/FrConstraintTwoBodiesBase.cpp, used by the links of FrLinkMaskBase.cpp and FrLink.cpp. Paths are relative to /repo/src/frydom. Contracts: chrono::ChConstraintTwoBodies keeps cfm_i, the jacobians, Eq_a and Eq_b, which are zero when built; its Increment_q adds Eq_a times the impulse to the speeds (qb) of the first body and Eq_b times the impulse to those of the second, when they are active. The variables of the first body are those of a BEM body; the second body is another BEM body, or the ground, which is not active. Bodies that are active without being BEM bodies are not modelled. No proofs in this file.

Files cited or named: `core/link/FrLinkMaskBase.cpp`, `core/link/FrLinkMaskBase.h`, `core/link/constraint/FrConstraintTwoBodiesBase.cpp`, `core/link/constraint/FrConstraintTwoBodiesBase.h`, `core/link/links_lib/FrLink.cpp`, `core/link/links_lib/FrLink.h`

## DispModel.v

Model of the wave dispersion solver (environment/ocean/freeSurface/waves/FrWaveDispersionRelation.cpp; paths relative to /repo/src/frydom). double is modelled by the real numbers. The unbounded while loop takes a number of iterations; [None] means that it has not left the loop after that many. No proofs.

Files cited or named: `environment/ocean/freeSurface/waves/FrWaveDispersionRelation.cpp`, `environment/ocean/freeSurface/waves/FrWaveDispersionRelation.h`

## DynModel.v

Model of the dynamic cable: cable/FrDynamicCable.{h,cpp} (FrCable::GetStrainedLength of cable/FrCable.cpp is in CabModel). Paths are relative to /repo/src/frydom; [double] is modelled by [R], int and unsigned int by [nat] without overflow. Contracts: chrono::ChVector::Normalize divides by the length, and gives (1, 0, 0) for a null vector; ChMatrix33::Set_A_axis puts the three axes in columns; ChMesh keeps the nodes and the elements in the order they are added and GetElement(index) is velements[index]; an Euler beam element joins its two nodes, its section frame at eta in [-1, 1] and the axial force there are those of Chrono (parameters [section] and [axial], with the numbers of the element); ChLinkMateGeneric::SetConstrainedCoords. The catenary line used at the initialisation is the one of CabModel; here its positions, tensions and largest tension are a parameter. The visual assets are left out. No proofs in this file.

Files cited or named: `cable/FrCable.cpp`, `cable/FrCable.h`, `cable/FrDynamicCable.cpp`, `cable/FrDynamicCable.h`

## DynRegModel.v

Model of the objects a dynamic cable registers while it is initialised: cable/FrDynamicCable.cpp 140-155 and 243-248 (FrDynamicCableBase::Initialize of a cable longer than the distance between its ends), with make_catenary_line and FrCatenaryLine::Initialize of cable/FrCatenaryLine.cpp 282-294 and 340, over the registries of RegModel. Paths are relative to /repo/src/frydom. The line belongs to the system, the forces to the bodies of the two nodes. No proofs in this file.

Files cited or named: `cable/FrCatenaryLine.cpp`, `cable/FrCatenaryLine.h`, `cable/FrDynamicCable.cpp`, `cable/FrDynamicCable.h`

## EnvModel.v

Model of the environment container of FRyDoM: tide (environment/ocean/freeSurface/tidal/FrTidalModel.{h,cpp}), free surface (environment/ocean/freeSurface/FrFreeSurface.{h,cpp}), seabed (environment/ocean/seabed/FrSeabed.{h,cpp}), ocean (environment/ocean/FrOcean.cpp), atmosphere (environment/atmosphere/FrAtmosphere.cpp), FrEnvironment.cpp. Paths are relative to /repo/src/frydom; [double] is modelled by [R]. Simplifications: the assert macros are active (a false one is [Fails]); [Fails] is also exit(EXIT_FAILURE). A wave field is seen through its elevation only, a function of time and of the NWU coordinates (the wave fields are in WavModel.v and SeaModel.v); the time ramp is part of that function. mathutils::LookupTable1D is not in the repository; contract: linear interpolation, exception outside the table. Grid assets and log messages are not modelled. Members left uninitialised by a constructor are parameters. No proofs in this file.

Files cited or named: `core/FrOffshoreSystem.cpp`, `core/FrOffshoreSystem.h`, `environment/FrEnvironment.cpp`, `environment/FrEnvironment.h`, `environment/FrFluidType.h`, `environment/atmosphere/FrAtmosphere.cpp`, `environment/atmosphere/FrAtmosphere.h`, `environment/ocean/FrOcean.cpp`, `environment/ocean/FrOcean.h`, `environment/ocean/freeSurface/FrFreeSurface.cpp`, `environment/ocean/freeSurface/FrFreeSurface.h`, `environment/ocean/freeSurface/tidal/FrTidalModel.cpp`, `environment/ocean/freeSurface/tidal/FrTidalModel.h`, `environment/ocean/freeSurface/waves/FrWaveField.cpp`, `environment/ocean/freeSurface/waves/FrWaveField.h`, `environment/ocean/seabed/FrSeabed.cpp`, `environment/ocean/seabed/FrSeabed.h`

## EqfModel.v

Model of the equilibrium frames (hydrodynamics/FrEquilibriumFrame.cpp) and of the linear hydrostatic force (hydrodynamics/hydrostatic/FrLinearHydrostaticForce.cpp). Paths are relative to /repo/src/frydom. The node of the frame is a marker of the body (see BodyModel); functions that read it take the marker as it is at the time of the call. Logging is not modelled. No proofs in this file.

Files cited or named: `hydrodynamics/FrEquilibriumFrame.cpp`, `hydrodynamics/FrEquilibriumFrame.h`, `hydrodynamics/hydrostatic/FrLinearHydrostaticForce.cpp`, `hydrodynamics/hydrostatic/FrLinearHydrostaticForce.h`

## EvModel.v

Model of the event log: logging/FrEventLogger.cpp and FrEventLogger.h, as used by logging/FrLogManager.cpp 37-54 and by the constructor and the destructor of core/FrOffshoreSystem.cpp 169-210. Paths are relative to /repo/src/frydom. Contracts: spdlog: a logger whose name is registered cannot be created again (exception); new loggers let pass the messages from the level "info" on; set_level acts on the registered loggers; drop_all forgets them; an error of format is caught and the message is lost. fmt: "{}" is replaced by the next argument, "{{" and "}}" are braces, surplus arguments are ignored, anything else with a brace is an error (other placeholders are not modelled). No proofs in this file.

Files cited or named: `core/FrOffshoreSystem.cpp`, `core/FrOffshoreSystem.h`, `logging/FrEventLogger.cpp`, `logging/FrEventLogger.h`, `logging/FrLogManager.cpp`, `logging/FrLogManager.h`

## ExcModel.v

Model of the linear wave loads of a hydrodynamic database: FrLinearHDBForce (hydrodynamics/seakeeping/linear/ excitation/FrLinearHDBForce.cpp) with its three kinds of loads, the excitation tables of FrBEMBody (hdb/FrBEMBody.cpp), FrHydroDB::GetWaveDirections and ExcitationReader (hdb/FrHydroDB.cpp), the wave drift force (second_order_drift/FrWaveDriftForce.cpp) and the nonlinear Froude-Krylov force (excitation/FrNonLinearFroudeKrylovForce.cpp). Paths are relative to /repo/src/frydom/hydrodynamics/seakeeping/linear. double is modelled by the reals, std::complex<double> by Coquelicot's C. mathutils::Interp1dLinear and LookupTable2d are not in the repository; contracts: linear (bilinear) interpolation between the coordinates around the argument, an assertion or exception outside them (Fails). An index out of range of a vector or of an Eigen matrix is Undef. Sums are written in one order of addition. The HDF5 reader itself and logging are not modelled. No proofs in this file.

Files cited or named: `environment/ocean/freeSurface/waves/FrWaveField.cpp`, `environment/ocean/freeSurface/waves/FrWaveField.h`, `environment/ocean/freeSurface/waves/airy/FrAiryIrregularWaveField.cpp`, `environment/ocean/freeSurface/waves/airy/FrAiryIrregularWaveField.h`, `environment/ocean/freeSurface/waves/airy/FrAiryRegularWaveField.cpp`, `environment/ocean/freeSurface/waves/airy/FrAiryRegularWaveField.h`, `hydrodynamics/seakeeping/linear/excitation/FrLinearDiffractionForce.cpp`, `hydrodynamics/seakeeping/linear/excitation/FrLinearDiffractionForce.h`, `hydrodynamics/seakeeping/linear/excitation/FrLinearExcitationForce.cpp`, `hydrodynamics/seakeeping/linear/excitation/FrLinearExcitationForce.h`, `hydrodynamics/seakeeping/linear/excitation/FrLinearFroudeKrylovForce.cpp`, `hydrodynamics/seakeeping/linear/excitation/FrLinearFroudeKrylovForce.h`, `hydrodynamics/seakeeping/linear/excitation/FrLinearHDBForce.cpp`, `hydrodynamics/seakeeping/linear/excitation/FrLinearHDBForce.h`, `hydrodynamics/seakeeping/linear/excitation/FrNonLinearFroudeKrylovForce.cpp`, `hydrodynamics/seakeeping/linear/excitation/FrNonLinearFroudeKrylovForce.h`, `hydrodynamics/seakeeping/linear/hdb/FrBEMBody.cpp`, `hydrodynamics/seakeeping/linear/hdb/FrBEMBody.h`, `hydrodynamics/seakeeping/linear/hdb/FrHydroDB.cpp`, `hydrodynamics/seakeeping/linear/hdb/FrHydroDB.h`, `hydrodynamics/seakeeping/linear/second_order_drift/FrWaveDriftForce.cpp`, `hydrodynamics/seakeeping/linear/second_order_drift/FrWaveDriftForce.h`, `mesh/FrMesh.cpp`, `mesh/FrMesh.h`

## FloModel.v

Model of the flow fields and of the forces that depend on them: FrUniformField, FrFlowBase and FrFlowForce (environment/flow), FrEnvironment (environment/FrEnvironment.cpp), FrWindStandardForce, FrCurrentStandardForce, FrLinearDamping and FrQuadraticDamping (hydrodynamics/damping), FrITTCResistance (hydrodynamics/wave_resistance) and FrManDampingTaylorExpansion (hydrodynamics/manoeuvring). Paths are relative to /repo/src/frydom. double is modelled by the reals; a division by zero has no value ([Undef]). mathutils is not in the repository; contracts used: GetProjectedAngleAroundZ is atan2(y, x), Normalize_0_2PI returns the congruent angle in [0, 2 pi), convert_velocity_unit multiplies by a factor that depends on the unit, LookupTable1D interpolates linearly and throws outside its range. FrQuadDamping (no constructor accessible from the API, body of Compute commented out) is left out. No proofs in this file.

Files cited or named: `core/math/FrVector.cpp`, `core/math/FrVector.h`, `environment/FrEnvironment.cpp`, `environment/FrEnvironment.h`, `environment/atmosphere/wind/FrWindStandardForce.cpp`, `environment/atmosphere/wind/FrWindStandardForce.h`, `environment/flow/FrFlowBase.cpp`, `environment/flow/FrFlowBase.h`, `environment/flow/FrFlowForce.cpp`, `environment/flow/FrFlowForce.h`, `environment/flow/FrUniformField.cpp`, `environment/flow/FrUniformField.h`, `environment/ocean/FrOcean.cpp`, `environment/ocean/FrOcean.h`, `environment/ocean/current/FrCurrentStandardForce.cpp`, `environment/ocean/current/FrCurrentStandardForce.h`, `environment/ocean/freeSurface/FrFreeSurface.cpp`, `environment/ocean/freeSurface/FrFreeSurface.h`, `hydrodynamics/FrQuadDamping.cpp`, `hydrodynamics/FrQuadDamping.h`, `hydrodynamics/damping/FrLinearDamping.cpp`, `hydrodynamics/damping/FrLinearDamping.h`, `hydrodynamics/damping/FrQuadraticDamping.cpp`, `hydrodynamics/damping/FrQuadraticDamping.h`, `hydrodynamics/manoeuvring/FrManoeuvringDamping.cpp`, `hydrodynamics/manoeuvring/FrManoeuvringDamping.h`, `hydrodynamics/wave_resistance/FrITTCResistance.cpp`, `hydrodynamics/wave_resistance/FrITTCResistance.h`

## FunModel.v

Model of the mathematical function objects of FRyDoM (src/frydom/core/math/functions). [double] is modelled by [R]. A function object is a pair of a static shape [expr] (the dynamic types of the nodes and their immutable parameters) and a mutable [state] (one cell of mutable members per node). No proofs in this file.

Files cited or named: `core/math/functions/FrFunctionBase.cpp`, `core/math/functions/FrFunctionBase.h`, `core/math/functions/lib/FrClampFunction.cpp`, `core/math/functions/lib/FrClampFunction.h`, `core/math/functions/lib/FrHyperbolicTrigonometricFunctions.cpp`, `core/math/functions/lib/FrHyperbolicTrigonometricFunctions.h`, `core/math/functions/lib/FrLinearFunction.cpp`, `core/math/functions/lib/FrLinearFunction.h`, `core/math/functions/lib/FrMiscFunctions.cpp`, `core/math/functions/lib/FrMiscFunctions.h`, `core/math/functions/lib/FrPowFunction.cpp`, `core/math/functions/lib/FrPowFunction.h`, `core/math/functions/lib/FrSaturateFunction.cpp`, `core/math/functions/lib/FrSaturateFunction.h`, `core/math/functions/lib/FrTrigonometricFunctions.cpp`, `core/math/functions/lib/FrTrigonometricFunctions.h`, `core/math/functions/ramp/FrCosRampFunction.cpp`, `core/math/functions/ramp/FrCosRampFunction.h`, `core/math/functions/ramp/FrLinearRampFunction.cpp`, `core/math/functions/ramp/FrLinearRampFunction.h`, `core/math/functions/ramp/FrTanhRampFunction.cpp`, `core/math/functions/ramp/FrTanhRampFunction.h`

## GeoModel.v

Model of the geometry classes of FRyDoM: vectors and frame conventions (core/math/FrVector.h), rotations (core/common/FrRotation.{h,cpp}, core/math/FrEulerAngles.inl), frames (core/common/FrFrame.{h,cpp}) and torsors (core/math/Torsor.cpp). Paths are relative to /repo/src/frydom. [double] is modelled by [R]. The Chrono classes ChVector, ChQuaternion, ChMatrix33, ChFrame are third-party code that is not in /repo: their documented behaviour is written out below in the section "Chrono" and is part of the trusted base. No proofs in this file.

Files cited or named: `core/common/FrConvention.h`, `core/common/FrFrame.cpp`, `core/common/FrFrame.h`, `core/common/FrRotation.cpp`, `core/common/FrRotation.h`, `core/math/FrEulerAngles.h`, `core/math/FrEulerAngles.inl`, `core/math/FrVector.cpp`, `core/math/FrVector.h`, `core/math/Torsor.cpp`

## GgrModel.v

Model of environment/geographicServices/FrGeographicServices.{h,cpp}. Paths are relative to /repo/src/frydom; [double] is modelled by [R]. GeographicLib is not in the repository; contracts written out below from its documentation: Geocentric (WGS84) and LocalCartesian in closed form; LocalCartesian::Reverse and MagneticModel are parameters; angles in degrees. [Undef]: a latitude out of [-90, 90], for which GeographicLib answers NaN. No proofs in this file.

Files cited or named: `environment/geographicServices/FrGeographicServices.cpp`, `environment/geographicServices/FrGeographicServices.h`

## HydModel.v

Model of the hydrostatic properties, of the linear hydrostatic stiffness matrix and of the hydrostatic equilibrium solver (directory hydrodynamics/hydrostatic). Paths are relative to /repo/src/frydom/hydrodynamics/hydrostatic. [double] is modelled by [R]. [None] / [Stuck] stand for undefined behaviour or a failed assertion. No proofs in this file.

Files cited or named: `hydrodynamics/hydrostatic/FrHydroStaticEquilibrium.cpp`, `hydrodynamics/hydrostatic/FrHydroStaticEquilibrium.h`, `hydrodynamics/hydrostatic/FrHydrostaticsProperties.cpp`, `hydrodynamics/hydrostatic/FrHydrostaticsProperties.h`, `hydrodynamics/hydrostatic/FrLinearHydrostaticForce.cpp`, `hydrodynamics/hydrostatic/FrLinearHydrostaticForce.h`, `hydrodynamics/hydrostatic/FrLinearHydrostaticStiffnessMatrix.cpp`, `hydrodynamics/hydrostatic/FrLinearHydrostaticStiffnessMatrix.h`, `mesh/FrHydroMesh.cpp`, `mesh/FrHydroMesh.h`, `mesh/FrPolygon.cpp`, `mesh/FrPolygon.h`

## InertiaModel.v

Model of the inertia tensors and assemblies of FRyDoM (core/body/FrInertiaTensor.{h,cpp}, core/body/FrAssembly.cpp, FrBody::GetInertiaTensor / SetInertiaTensor). Paths are relative to /repo/src/frydom. [double] is modelled by [R]. No proofs in this file.

Files cited or named: `core/body/FrAssembly.cpp`, `core/body/FrAssembly.h`, `core/body/FrBody.cpp`, `core/body/FrBody.h`, `core/body/FrInertiaTensor.cpp`, `core/body/FrInertiaTensor.h`, `core/math/FrMatrix.cpp`, `core/math/FrMatrix.h`

## IoModel.v

Model of the HDF5 reader: IO/FrHDF5.cpp, and of the configuration file: utils/FrConfig.cpp. Paths are relative to /repo/src/frydom; [double] is modelled by [R], [int] by [Z]. Contracts: HDF5: openDataSet throws when the path is not a dataset; read copies the values in row major order; read with the type of the dataset copies them without conversion; H5Lexists is negative when an intermediate group is missing, zero when only the last link is; closing twice is harmless. Eigen: matrices are stored by columns. nlohmann: parse throws on a file that cannot be opened and on malformed text, the access to a key throws on a value that is not an object, and the conversion to a string on a value that is not a string. No proofs in this file.

Files cited or named: `IO/FrHDF5.cpp`, `IO/FrHDF5.h`, `utils/FrConfig.cpp`, `utils/FrConfig.h`

## LnkModel.v

Model of the links: /repo/src/frydom/core/link. Line numbers refer to links_lib/FrLink.cpp unless another file is named. Bodies and nodes are those of BodyModel; exact real arithmetic. Contracts of Chrono: for ReferenceMarkers(node2, node1) the relative coordinates of ChLinkMarkers are those of node 2 in node 1 (GetRelM), GetRelM_dt().pos is their derivative, GetRelWvel the relative angular velocity in the axes of node 1; Get_react_force and Get_react_torque are the reaction on the body of node 1, at node 1 and in its axes (parameters here); ChLinkLock::Update sets C_force and C_torque to zero, and C_force, C_torque are then the force and torque on the body of node 2, at node 2, in the axes of node 1; Q_to_AngAxis as below; Normalize__PI_PI (mathutils) as below. Accelerations and log messages are not modelled. No proofs.

Files cited or named: `core/body/FrBody.cpp`, `core/body/FrBody.h`, `core/common/FrRotation.cpp`, `core/common/FrRotation.h`, `core/link/constraint/FrCGeometrical.cpp`, `core/link/constraint/FrCGeometrical.h`, `core/link/constraint/FrConstraint.cpp`, `core/link/constraint/FrConstraint.h`, `core/link/links_lib/FrDOFMaskLink.cpp`, `core/link/links_lib/FrDOFMaskLink.h`, `core/link/links_lib/FrLink.cpp`, `core/link/links_lib/FrLink.h`, `core/link/links_lib/FrPrismaticLink.cpp`, `core/link/links_lib/FrPrismaticLink.h`, `core/link/links_lib/FrRevoluteLink.cpp`, `core/link/links_lib/FrRevoluteLink.h`, `core/link/links_lib/actuators/FrActuator.cpp`, `core/link/links_lib/actuators/FrActuator.h`, `core/link/links_lib/actuators/FrAngularActuator.cpp`, `core/link/links_lib/actuators/FrAngularActuator.h`, `core/link/links_lib/actuators/FrLinearActuator.cpp`, `core/link/links_lib/actuators/FrLinearActuator.h`

## MeshModel.v

Model of the surface-mesh classes: polynomial face integrals, planes, polygons, boundary polygons, volume, centre of gravity and inertia of a mesh (mesh/FrMesh.cpp, FrPlane.cpp, FrPolygon.{h,cpp}) and of the nonlinear hydrostatic force (hydrodynamics/seakeeping/.../FrNonlinearHydrostaticForce.cpp). Paths are relative to /repo/src/frydom. [double] is modelled by [R]. OpenMesh (third party, not in /repo) is trusted: vertices and faces are kept in lists, faces are index triples, the half-edges are the directed edges of the faces and their opposites. [None] stands for a failed assertion or an endless loop. No proofs in this file.

Files cited or named: `core/body/FrInertiaTensor.cpp`, `core/body/FrInertiaTensor.h`, `hydrodynamics/hydrostatic/FrNonlinearHydrostaticForce.cpp`, `hydrodynamics/hydrostatic/FrNonlinearHydrostaticForce.h`, `mesh/FrMesh.cpp`, `mesh/FrMesh.h`, `mesh/FrMeshTraits.h`, `mesh/FrPlane.cpp`, `mesh/FrPlane.h`, `mesh/FrPolygon.cpp`, `mesh/FrPolygon.h`

## MorModel.v

Model of the Morison elements: /repo/src/frydom/hydrodynamics/morison/FrMorisonModel.{h,cpp} and FrMorisonForce.cpp. Line numbers refer to FrMorisonModel.cpp unless said otherwise. Simplifications: exact real arithmetic; all elements of a model are on one body (AddElement(model) does not check it); the wave field, its acceleration and the current are arbitrary functions of the position at the current time; the acceleration of the nodes is a parameter (accelerations of bodies are not modelled); the nodes of an element are markers of the body, so an element holds the index of its node in [b_marks]; time is not used by the code.

Files cited or named: `core/common/FrRotation.cpp`, `core/common/FrRotation.h`, `hydrodynamics/morison/FrMorisonForce.cpp`, `hydrodynamics/morison/FrMorisonForce.h`, `hydrodynamics/morison/FrMorisonModel.cpp`, `hydrodynamics/morison/FrMorisonModel.h`

## PolModel.v

Model of the polynomial function: core/math/functions/lib/FrPolynomialFunction.cpp (an FrFunctionBase over the operators of FrFunctionBase.cpp 205-207, 245-247 and FrPowFunction.cpp 53-55), on the function objects of FunModel, and of the creation of directories: utils/FrFileSystem.cpp (mkdir). Paths are relative to /repo/src/frydom; [double] is modelled by [R]. Contracts: cppfs: exists, isDirectory, parentDirectory of an absolute path (the root exists); createDirectory makes a directory in a parent that is a directory, and fails in a parent that is a file. Permissions are not modelled. The assertion on the power is a hypothesis. No proofs in this file.

Files cited or named: `core/math/functions/FrFunctionBase.cpp`, `core/math/functions/FrFunctionBase.h`, `core/math/functions/lib/FrPolynomialFunction.cpp`, `core/math/functions/lib/FrPolynomialFunction.h`, `core/math/functions/lib/FrPowFunction.cpp`, `core/math/functions/lib/FrPowFunction.h`, `utils/FrFileSystem.cpp`, `utils/FrFileSystem.h`

## RadModel.v

Model of the radiation convolution: FrBEMDOFMask and the kernels of FrBEMBody (hydrodynamics/seakeeping/linear/ hdb/FrBEMBody.cpp), FrDiscretization1D and FrHydroDB (hdb/FrHydroDB.cpp), FrHydroMapper (hdb/FrHydroMapper.cpp), FrRadiationConvolutionModel (radiation/FrRadiationModel.cpp) and FrRadiationConvolutionForce (radiation/FrRadiationForce.cpp). Paths are relative to /repo/src/frydom/hydrodynamics/seakeeping/linear. double is modelled by the reals. Pointers to FrBEMBody and FrBody are natural numbers; an unordered_map is a function to option together with, for the map that is iterated, the list of its keys in the (unspecified but fixed) iteration order. A vector of six components is a function of the index. Sums are written in one order of addition: addition of reals is associative. mathutils::Interp1dLinear is not in the repository; contract: linear interpolation between the two coordinates around x, an assertion fails outside the coordinates. The HDF5 file format, logging and the acceleration terms (GetRadiationInertiaPart) are not modelled. No proofs in this file.

Files cited or named: `core/math/FrVector.cpp`, `core/math/FrVector.h`, `hydrodynamics/FrEquilibriumFrame.cpp`, `hydrodynamics/FrEquilibriumFrame.h`, `hydrodynamics/seakeeping/linear/hdb/FrBEMBody.cpp`, `hydrodynamics/seakeeping/linear/hdb/FrBEMBody.h`, `hydrodynamics/seakeeping/linear/hdb/FrHydroDB.cpp`, `hydrodynamics/seakeeping/linear/hdb/FrHydroDB.h`, `hydrodynamics/seakeeping/linear/hdb/FrHydroMapper.cpp`, `hydrodynamics/seakeeping/linear/hdb/FrHydroMapper.h`, `hydrodynamics/seakeeping/linear/radiation/FrRadiationForce.cpp`, `hydrodynamics/seakeeping/linear/radiation/FrRadiationForce.h`, `hydrodynamics/seakeeping/linear/radiation/FrRadiationModel.cpp`, `hydrodynamics/seakeeping/linear/radiation/FrRadiationModel.h`

## RegModel.v

Model of the registries of FRyDoM: the lists of an FrOffshoreSystem (core/FrOffshoreSystem.cpp), the force and node lists of bodies (core/body/FrBody.cpp), the path manager (logging/FrPathManager.{h,cpp}, logging/FrPathPolicies.cpp) and the log manager (logging/FrLogManager.cpp). Paths are relative to /repo/src/frydom. No proofs in this file.

Files cited or named: `cable/FrCatenaryLine.cpp`, `cable/FrCatenaryLine.h`, `cable/FrDynamicCable.cpp`, `cable/FrDynamicCable.h`, `core/FrOffshoreSystem.cpp`, `core/FrOffshoreSystem.h`, `core/body/FrBody.cpp`, `core/body/FrBody.h`, `core/common/FrNode.cpp`, `core/common/FrNode.h`, `core/common/FrTreeNode.cpp`, `core/common/FrTreeNode.h`, `core/force/FrForce.cpp`, `core/force/FrForce.h`, `core/link/constraint/FrConstraint.cpp`, `core/link/constraint/FrConstraint.h`, `core/link/links_lib/FrLink.cpp`, `core/link/links_lib/FrLink.h`, `core/link/links_lib/actuators/FrActuator.cpp`, `core/link/links_lib/actuators/FrActuator.h`, `hydrodynamics/FrEquilibriumFrame.cpp`, `hydrodynamics/FrEquilibriumFrame.h`, `logging/FrLogManager.cpp`, `logging/FrLogManager.h`, `logging/FrLoggable.cpp`, `logging/FrLoggable.h`, `logging/FrPathManager.cpp`, `logging/FrPathManager.h`, `logging/FrPathPolicies.cpp`, `logging/FrPathPolicies.h`

## SeaModel.v

Model of the wave spectra and of the configuration of the irregular wave fields (environment/ocean/freeSurface/waves: FrWaveSpectrum.cpp, airy/FrAiryIrregularWaveField.cpp, airy/FrAiryIrregularOptimWaveField.cpp). Paths are relative to /repo/src/frydom/environment/ocean/freeSurface/waves. double is modelled by the reals, except in the last section, where the bisection is modelled in binary64 with Coq.Floats.SpecFloat. mathutils is not in the repository; the contracts used are linspace(a, b, n) (n values with equal steps, the value a alone for n = 1), convert_frequency(T, S, RADS) = 2 pi / T, RADS2S(w) = 2 pi / w and Normalize_0_2PI. Logging and console warnings are not modelled. No proofs in this file.

Files cited or named: `environment/ocean/freeSurface/waves/FrWaveField.cpp`, `environment/ocean/freeSurface/waves/FrWaveField.h`, `environment/ocean/freeSurface/waves/FrWaveSpectrum.cpp`, `environment/ocean/freeSurface/waves/FrWaveSpectrum.h`, `environment/ocean/freeSurface/waves/airy/FrAiryIrregularOptimWaveField.cpp`, `environment/ocean/freeSurface/waves/airy/FrAiryIrregularOptimWaveField.h`, `environment/ocean/freeSurface/waves/airy/FrAiryIrregularWaveField.cpp`, `environment/ocean/freeSurface/waves/airy/FrAiryIrregularWaveField.h`

## SigModel.v

Model of the sampled-signal code: FrTimeRecorder (utils/FrRecorder.h) and the quadrature of the radiation convolution (hydrodynamics/seakeeping/linear/radiation/FrRadiationModel.cpp). Samples are real numbers: vectors are recorded and integrated component by component. Paths are relative to /repo/src/frydom. No proofs in this file.

Files cited or named: `hydrodynamics/seakeeping/linear/radiation/FrRadiationModel.cpp`, `hydrodynamics/seakeeping/linear/radiation/FrRadiationModel.h`, `utils/FrRecorder.h`

## StcModel.v

Model of the static analysis by dynamic relaxation (core/statics/FrStaticAnalysis.{h,cpp}, FrOffshoreSystem::Relax), of the disabling and the breaking of links (core/link/links_lib/FrLink.cpp), of the simple solids (core/body/FrBodyEasy.cpp, asset/shape) and of the mooring buoy (cable/FrMooringBuoy.{h,cpp}). Paths are relative to /repo/src/frydom; [double] is modelled by [R]. Chrono contracts: ChBody::IsActive is "neither sleeping nor fixed"; ChLinkBase::IsActive is "valid, not disabled, not broken"; ChBox::SetLengths keeps the lengths it is given; the collision models keep the half lengths they are given; ChBody::Update evaluates the forces of the body. Simplifications: the log flags kept beside the activity flags, which nothing reads back, are omitted; so are event and console messages. The dynamics is a parameter. No proofs in this file.

Files cited or named: `asset/shape/FrBoxShape.cpp`, `asset/shape/FrBoxShape.h`, `asset/shape/FrCylinderShape.cpp`, `asset/shape/FrCylinderShape.h`, `asset/shape/FrSphereShape.cpp`, `asset/shape/FrSphereShape.h`, `cable/FrMooringBuoy.cpp`, `cable/FrMooringBuoy.h`, `core/FrOffshoreSystem.cpp`, `core/FrOffshoreSystem.h`, `core/body/FrBody.cpp`, `core/body/FrBody.h`, `core/body/FrBodyEasy.cpp`, `core/body/FrBodyEasy.h`, `core/common/FrPhysicsItem.cpp`, `core/common/FrPhysicsItem.h`, `core/force/FrForce.cpp`, `core/force/FrForce.h`, `core/link/FrLinkBase.cpp`, `core/link/FrLinkBase.h`, `core/link/links_lib/FrLink.cpp`, `core/link/links_lib/FrLink.h`, `core/link/links_lib/actuators/FrActuator.cpp`, `core/link/links_lib/actuators/FrActuator.h`, `core/statics/FrStaticAnalysis.cpp`, `core/statics/FrStaticAnalysis.h`

## TimModel.v

Model of the calendar of FRyDoM: environment/time/FrTimeServices.{h,cpp}, environment/time/FrTimeZone.{h,cpp} and FrEnvironment::GetYear (environment/FrEnvironment.cpp 122-126). Paths are relative to /repo/src/frydom. Instants and durations are integers, in milliseconds since 1970-01-01; [double] is modelled by [R]. The date library (H. Hinnant) is not in the repository; contracts written out below: sys_days / year_month_day are the published days_from_civil / civil_from_days; a time zone is its table of offsets; make_zoned of a local time throws when no or several instants have that local time. Simplifications: years fit in date::year; overflow of the 64-bit millisecond count is not modelled; tm_isdst is not modelled. [Undef]: floor(time) out of the range of int. No proofs in this file.

Files cited or named: `environment/FrEnvironment.cpp`, `environment/FrEnvironment.h`, `environment/time/FrTimeServices.cpp`, `environment/time/FrTimeServices.h`, `environment/time/FrTimeZone.cpp`, `environment/time/FrTimeZone.h`

## WavModel.v

Model of the Airy wave fields and of the kinematic stretching (environment/ocean/freeSurface/waves: FrKinematicStretching.cpp, FrWaveField.cpp, airy/FrAiryRegularWaveField.cpp, airy/FrAiryRegularOptimWaveField.cpp, and the queries of airy/FrAiryIrregularWaveField.cpp). Paths are relative to /repo/src/frydom/environment/ocean/freeSurface/waves. double is modelled by the reals, std::complex by Coquelicot's C. Access outside a vector is undefined behaviour: [None]. mathutils (Normalize_0_2PI, Normalize_0_360, S2RADS) is not in the repository: the functions below are the contract used. Logging is not modelled. No proofs in this file.

Files cited or named: `environment/ocean/freeSurface/waves/FrKinematicStretching.cpp`, `environment/ocean/freeSurface/waves/FrKinematicStretching.h`, `environment/ocean/freeSurface/waves/FrWaveField.cpp`, `environment/ocean/freeSurface/waves/FrWaveField.h`, `environment/ocean/freeSurface/waves/airy/FrAiryIrregularWaveField.cpp`, `environment/ocean/freeSurface/waves/airy/FrAiryIrregularWaveField.h`, `environment/ocean/freeSurface/waves/airy/FrAiryRegularOptimWaveField.cpp`, `environment/ocean/freeSurface/waves/airy/FrAiryRegularOptimWaveField.h`, `environment/ocean/freeSurface/waves/airy/FrAiryRegularWaveField.cpp`, `environment/ocean/freeSurface/waves/airy/FrAiryRegularWaveField.h`

# Source files cited by no model

Implementation files:

* `asset/FrAsset.cpp`
* `asset/FrForceAsset.cpp`
* `asset/FrNodeAsset.cpp`
* `asset/shape/FrTriangleMeshShape.cpp`
* `collision/FrCollisionModel.cpp`
* `core/common/FrException.cpp`
* `core/common/FrFEAMesh.cpp`
* `core/common/FrObject.cpp`
* `core/link/links_lib/FrCylindricalLink.cpp`
* `core/link/links_lib/FrFixedLink.cpp`
* `core/link/links_lib/FrFreeLink.cpp`
* `core/link/links_lib/FrPrismaticRevoluteLink.cpp`
* `core/link/links_lib/FrScrewLink.cpp`
* `core/link/links_lib/FrSphericalLink.cpp`
* `core/misc/FrColors.cpp`
* `environment/atmosphere/wind/FrWind.cpp`
* `environment/ocean/current/FrCurrent.cpp`
* `logging/FrTypeNames.cpp`
* `mesh/FrCache.cpp`
* `mooring/FrMooring.cpp`
* `utils/FrIrrApp.cpp`
* `utils/FrIrrCamera.cpp`

Headers without an implementation file (forward declarations, umbrella headers and the like):

`IO/FrIOInc.h`, `asset/FrAssetInc.h`, `cable/FrCableInc.h`, `core/FrCore.h`, `core/FrPlatform.h`, `core/body/FrBodyInc.h`, `core/common/FrCommonInc.h`, `core/common/FrUnits.h`, `core/force/FrForceInc.h`, `core/link/FrLinkInc.h`, `core/link/constraint/FrConstraintInc.h`, `core/link/links_lib/FrLinksLibInc.h`, `core/link/links_lib/actuators/FrActuatorsInc.h`, `core/math/FrComplex.h`, `core/math/FrMathInc.h`, `core/math/functions/FrFunctionsInc.h`, `core/math/functions/lib/FrFunctionLibInc.h`, `core/math/functions/ramp/FrRampFunctionInc.h`, `core/misc/FrMiscInc.h`, `core/statics/FrStaticsInc.h`, `environment/FrEnvironmentInc.h`, `environment/atmosphere/FrAtmosphereInc.h`, `environment/atmosphere/wind/FrWindInc.h`, `environment/flow/FrFieldBase.h`, `environment/flow/FrFlowInc.h`, `environment/geographicServices/FrGeographicServicesInc.h`, `environment/ocean/FrOceanInc.h`, `environment/ocean/current/FrCurrentInc.h`, `environment/ocean/freeSurface/FrFreeSurfaceInc.h`, `environment/ocean/freeSurface/tidal/FrTidalInc.h`, `environment/ocean/freeSurface/waves/FrWavesInc.h`, `environment/ocean/freeSurface/waves/airy/FrAiryInc.h`, `environment/ocean/seabed/FrSeabedInc.h`, `environment/time/FrTimeInc.h`, `frydom.h`, `hydrodynamics/FrHydrodynamicsInc.h`, `hydrodynamics/damping/FrDampingInc.h`, `hydrodynamics/hydrostatic/FrHydrostaticInc.h`, `hydrodynamics/manoeuvring/FrManoeuvringInc.h`, `hydrodynamics/morison/FrMorisonInc.h`, `hydrodynamics/seakeeping/FrSeakeepingInc.h`, `hydrodynamics/seakeeping/linear/FrLinearSeakeepingInc.h`, `hydrodynamics/seakeeping/linear/excitation/FrLinearExcitationInc.h`, `hydrodynamics/seakeeping/linear/hdb/FrLinearHDBInc.h`, `hydrodynamics/seakeeping/linear/radiation/FrLinearRadiationInc.h`, `hydrodynamics/seakeeping/linear/second_order_drift/FrSecondOrderDriftInc.h`, `hydrodynamics/wave_resistance/FrWaveResistanceInc.h`, `logging/FrSerializerFactory.h`, `mesh/FrMeshInc.h`, `utils/FrUtilsInc.h`, `version.h`

# Claims refuted of the code

Each theorem is the negation of the claim, proved on the model by a concrete case or for all cases.

* C04 (asinh is the inverse hyperbolic sine): `C04_asinh_refuted`
* C05 (Compound assignment agrees with the binary operator): `C05_compound_assignment_refuted`
* C09 (Linear function setters take effect): `C09_linear_setters_refuted`
* C10 (Hyperbolic-tangent ramp does not depend on earlier queries): `C10_tanh_ramp_refuted`, `C10_end_point_refuted`
* C50 (Hydrostatic torque on a wave-clipped hull): `C50_torque_refuted`
* C55 (Mesh offset is the pose of the mesh in the body): `C55_import_refuted`
* C86 (Wave loads depend on the heading): `C86_heading_refuted`
* C90 (Wave drift for every heading and attitude): `C90_direction_refuted`, `C90_axes_refuted`
* C92 (Wave loads in still water): `C92_still_water_refuted`
* C93 (Wave drift follows the ramp): `C93_ramp_refuted`
* C94 (Clamping a function that was queried before): `C94_history_independence_refuted`
* C95 (X offset survives copies and use in expressions): `C95_copy_forgets_offset_refuted`, `C95_offset_in_expression_refuted`
* C96 (Clamping a queried function holds it constant outside its bound): `C96_clamp_refuted`
* C97 (One-sided saturations): `C97_one_sided_refuted`
* C98 (Frame set by three axes follows the frame convention): `C98_frame_axes_ned_refuted`
* C99 (Cardan angles in gimbal lock): `C99_gimbal_refuted`
* C100 (Frame product assignment, rotations by radians, projection on the horizontal): `C100_mul_assign_refuted`, `C100_rotate_radians_refuted`, `C100_project_refuted`
* C101 (Translating and rotating a node in body or world axes): `C101_translate_in_body_refuted`, `C101_rotate_in_body_refuted`, `C101_rotate_in_world_refuted`
* C102 (Inertia data given at the centre of gravity in NED): `C102_cog_data_refuted`, `C102_set_at_cog_refuted`
* C103 (A removed force can be added again): `C103_readd_removed_refuted`
* C104 (Log paths of objects with arbitrary names): `C104_names_with_slash_refuted`
* C105 (Adding again, Clear and cable removal undo their registrations): `C105_readd_refuted`, `C105_clear_refuted`, `C105_cable_hinges_refuted`
* C106 (Time recorder with large time increments): `C106_large_steps_refuted`
* C107 (Mixed monomials of face integrals): `C107_mixed_monomials_refuted`
* C108 (Cubic polygon integrals): `C108_uninitialised_refuted`, `C108_cubic_refuted`
* C109 (Clipping by a discontinuous surface): `C109_jump_refuted`
* C110 (Hydrostatic properties again and with a moonpool): `C110_recompute_refuted`, `C110_moonpool_refuted`
* C111 (Airy kinematics at the bed of a deep sea and during a ramp): `C111_bed_refuted`, `C111_ramp_refuted`
* C112 (Velocity, acceleration, pressure and cut-off of waves in NED): `C112_velocity_refuted`, `C112_pressure_refuted`, `C112_cutoff_refuted`
* C113 (Relative accuracy of the dispersion solver): `C113_relative_accuracy_refuted`
* C114 (Spectra are nonnegative for every gamma): `C114_nonneg_refuted`
* C115 (Bands of the discretised spectrum for every list): `C115_three_refuted`, `C115_three_directions_refuted`, `C115_widths_refuted`, `C115_two_refuted`, `C115_no_model_refuted`
* C116 (Wave direction in radians or as a vector): `C116_radians_refuted`, `C116_vector_refuted`
* C117 (Frequency bandwidth search in double precision): `C117_binary64_refuted`
* C118 (Catenary line of a neutral or modified cable): `C118_neutral_refuted`, `C118_stale_refuted`
* C119 (make_cable_properties): `C119_make_refuted`
* C120 (Slow equilibrium frames, NED velocities, restart): `C120_slow_refuted`, `C120_restart_refuted`, `C120_velocity_ned_refuted`, `C120_velocity_in_frame_ned_refuted`
* C121 (Shell inertia from meshes): `C121_shell_mass_refuted`
* C122 (Archimedes with a tide): `C122_tide_refuted`
* C123 (Equilibrium solver: place, memory, submerged body, earlier calls): `C123_offset_refuted`, `C123_uninitialised_refuted`, `C123_submerged_refuted`, `C123_exhausted_refuted`, `C123_heading_refuted`
* C124 (Linear hydrostatic force made from a mesh or bow up): `C124_mesh_maker_refuted`, `C124_vertical_refuted`
* C125 (Spring-damping frame: heading wrap and restart): `C125_heading_wrap_refuted`, `C125_restart_refuted`
* C126 (Mean-motion frame does not depend on memory): `C126_uninitialised_refuted`
* C127 (Optimised wave field during a step): `C127_update_refuted`
* C128 (Setting the wave period again): `C128_history_refuted`
* C129 (Spreading over two directions and beyond half a turn): `C129_two_directions_refuted`, `C129_half_turn_refuted`
* C130 (An irregular wave field uses what was asked for, in any order): `C130_none_refuted`, `C130_order_refuted`, `C130_seed_refuted`, `C130_direction_refuted`, `C130_late_frequencies_refuted`
* C131 (Loading a wave field into the optimised form): `C131_optim_refuted`
* C132 (Catenary solver reports failure and handles taut and vertical lines): `C132_short_refuted`, `C132_silent_refuted`, `C132_vertical_refuted`
* C133 (Unrolling of a line created late): `C133_late_refuted`
* C134 (Relative flow in NED): `C134_relative_ned_refuted`
* C135 (Check of damping matrices, resistance at every speed and in a current): `C135_check_refuted`, `C135_resistance_refuted`, `C135_resistance_current_refuted`
* C136 (Manoeuvring damping opposes the motion): `C136_cubic_refuted`, `C136_power_refuted`
* C137 (Standard flow force: unset abscissa, capsized ship): `C137_xcenter_refuted`, `C137_capsized_refuted`
* C138 (Polar tables without row ahead or with rows near the bow): `C138_gap_refuted`, `C138_five_degrees_refuted`
* C139 (Forward speed corrections of several ships and going astern): `C139_other_bodies_refuted`, `C139_astern_refuted`
* C140 (Giving a mask again): `C140_again_refuted`
* C141 (Default memory for every database and time step): `C141_window_refuted`
* C142 (Mapping a database body again): `C142_remap_refuted`
* C143 (Kernels given again): `C143_again_refuted`
* C144 (Stretching above the switch and selection of every model): `C144_above_refuted`, `C144_three_refuted`, `C144_selection_regular_refuted`, `C144_selection_irregular_refuted`
* C145 (Reconfiguring a function object takes effect at the last queried abscissa): `C145_reconfiguration_refuted`
* C146 (Stiffness matrix of the solver in NED and away from the origin): `C146_ned_refuted`, `C146_offset_refuted`
* C147 (A failed Add does not leave the object in the system): `C147_failed_add_refuted`
* C148 (RemoveAll empties the system): `C148_remove_all_refuted`
* C149 (Wave loads follow new waves): `C149_new_waves_refuted`
* C150 (Wave loads for every mask): `C150_single_refuted`
* C154 (The variables of the bodies represent one linear mass operator): `C154_linear_refuted`, `C154_product_refuted`, `C154_assembly_refuted`
* C155 (Inertia changed after the initialisation): `C155_inertia_refuted`
* C156 (Free bodies next to a fixed one): `C156_fixed_refuted`
* C157 (Added mass turns with the ship): `C157_heading_refuted`
* C163 (The force of a tube follows the attitude of the body): `C163_turned_refuted`
* C164 (Including the current in a composite model): `C164_current_refuted`
* C165 (Every reference direction gives a tube): `C165_reference_refuted`
* C166 (Inertia force of an accelerated body): `C166_inertia_refuted`
* C168 (The inertia option reaches nested composites): `C168_nested_refuted`
* C169 (A round tube has isotropic drag): `C169_round_refuted`
* C172 (Velocity of node 1 with respect to node 2): `C172_velocity_of_node1_refuted`
* C173 (Relative velocities in NED): `C173_velocity_convention_refuted`
* C178 (Negative rest angles): `C178_negative_rest_angle_refuted`
* C181 (Clamping a revolute link): `C181_clamp_revolute_refuted`
* C182 (Clamping a prismatic link): `C182_clamp_prismatic_refuted`
* C183 (Motor force in NED): `C183_motor_convention_refuted`
* C186 (Mask of a type of link): `C186_mask_type_refuted`
* C188 (Motor of a broken link, and of a link motorised twice): `C188_motor_state_refuted`
* C190 (Signed distance to a plane in NED): `C190_signed_distance_refuted`
* C194 (Tide labels): `C194_tide_labels_refuted`
* C196 (Every clock time is accepted): `C196_clock_refuted`
* C197 (Height of a tide): `C197_tide_refuted`
* C200 (Depth in NED): `C200_depth_ned_refuted`
* C201 (Showing the seabed): `C201_show_seabed_refuted`
* C202 (Hiding the seabed during a simulation): `C202_hide_seabed_refuted`
* C205 (Viscosities stay consistent): `C205_viscosity_refuted`
* C209 (Time in a zone): `C209_zone_time_refuted`
* C211 (UTC in local mode): `C211_local_mode_refuted`
* C212 (Order of the setters of the time zone): `C212_set_day_order_refuted`
* C218 (Magnetic field in the cartesian frame): `C218_magnetic_frame_refuted`
* C222 (Activities changed between two analyses): `C222_static_activity_refuted`
* C223 (Fixed bodies and broken links across an analysis): `C223_static_fixed_refuted`
* C224 (Number of iterations): `C224_static_iterations_refuted`
* C226 (Motor of an inactive link): `C226_broken_motor_refuted`
* C230 (The push of the mooring buoy is the current one): `C230_buoy_force_refuted`
* C233 (Height of a polar grid): `C233_seabed_refuted`
* C234 (Extent of a cartesian grid): `C234_domain_refuted`
* C235 (The drawn free surface is current): `C235_hidden_refuted`
* C237 (A line drawn with one element): `C237_one_element_refuted`
* C239 (Shapes listed by an object): `C239_shapes_refuted`
* C241 (Meshes of two base names): `C241_overwritten_refuted`
* C243 (Faulty files of polar coefficients): `C243_report_refuted`, `C243_cut_refuted`
* C245 (Reactions and added masses): `C245_equal_forces_refuted`, `C245_third_body_refuted`
* C247 (Initial mesh of a taut dynamic cable): `C247_end_refuted`
* C249 (Reading beyond the end of a dynamic cable): `C249_position_beyond_refuted`
* C250 (Target length of the elements): `C250_target_refuted`, `C250_empty_refuted`
* C252 (Breaking tension of a dynamic cable): `C252_scale_refuted`
* C253 (Drawing sizes of a dynamic cable): `C253_node_size_refuted`
* C255 (Registries and initialisation of a dynamic cable): `C255_several_refuted`
* C256 (Unrolling a dynamic cable): `C256_unrolling_refuted`
* C258 (Second derivative of a polynomial at zero): `C258_linear_term_refuted`
* C259 (Adding a term after a query): `C259_stale_refuted`
* C261 (mkdir over a file): `C261_file_refuted`
* C263 (Reading the columns of an array): `C263_columns_refuted`
* C264 (Reading the integers of an array): `C264_ints_refuted`
* C266 (Testing a path below a missing group): `C266_group_refuted`
* C268 (Files replaced in the reader): `C268_replaced_refuted`
* C270 (Absence of configuration): `C270_default_refuted`
* C272 (Several systems at the same time): `C272_independent_refuted`
* C273 (Level of the events): `C273_level_refuted`
* C274 (Text of the events): `C274_names_refuted`
