-Q theories Verif
theories/FunModel.v
theories/FunSpec.v
theories/FunProofs.v
theories/FunProofs2.v
theories/FunProofs3.v
theories/FunProps.v
theories/GeoModel.v
theories/GeoSpec.v
theories/GeoProofs.v
theories/GeoProofs2.v
theories/GeoProofs3.v
theories/GeoProofs4.v
theories/GeoProps.v
theories/BodyModel.v
theories/BodySpec.v
theories/BodyProofs.v
theories/BodyProofs2.v
theories/BodyProofs3.v
theories/BodyProofs4.v
theories/BodyProps.v
theories/InertiaModel.v
theories/InertiaSpec.v
theories/InertiaProofs.v
theories/InertiaProps.v
theories/RegModel.v
theories/RegSpec.v
theories/RegProofs.v
theories/RegProofs2.v
theories/RegProofs3.v
theories/RegProofs4.v
theories/RegProofs5.v
theories/RegProps.v
theories/SigModel.v
theories/SigSpec.v
theories/SigProofs.v
theories/SigProofs2.v
theories/SigProps.v
theories/MeshModel.v
theories/MeshSpec.v
theories/MeshProofs.v
theories/MeshProofs2.v
theories/MeshProofs3.v
theories/MeshProofs4.v
theories/MeshProofs5.v
theories/MeshProofs6.v
theories/MeshProofs7.v
theories/MeshProofs8.v
theories/MeshProofs9.v
theories/MeshProofs10.v
theories/MeshProofs11.v
theories/MeshProps.v
theories/ClipModel.v
theories/ClipSpec.v
theories/ClipProofs.v
theories/ClipProofs2.v
theories/ClipProofs3.v
theories/ClipProofs4.v
theories/ClipProofs5.v
theories/ClipProps.v
theories/HydModel.v
theories/HydSpec.v
theories/HydProofs.v
theories/HydProofs2.v
theories/HydProofs3.v
theories/HydProofs4.v
theories/HydProps.v
theories/EqfModel.v
theories/EqfSpec.v
theories/EqfProofs.v
theories/EqfProofs2.v
theories/EqfProps.v
theories/DispModel.v
theories/DispSpec.v
theories/DispProofs.v
theories/DispProps.v
theories/WavModel.v
theories/WavSpec.v
theories/WavProofs.v
theories/WavProofs2.v
theories/WavProofs3.v
theories/WavProps.v
theories/SeaModel.v
theories/SeaSpec.v
theories/SeaProofs.v
theories/SeaProofs2.v
theories/SeaProofs3.v
theories/SeaProofs4.v
theories/SeaProofs5.v
theories/SeaProofs6.v
theories/SeaProps.v
theories/CabModel.v
theories/CabSpec.v
theories/CabProofs.v
theories/CabProofs2.v
theories/CabProofs3.v
theories/CabProofs4.v
theories/CabProofs5.v
theories/CabProofs6.v
theories/CabProps.v
theories/FloModel.v
theories/FloSpec.v
theories/FloProofs.v
theories/FloProofs2.v
theories/FloProofs3.v
theories/FloProofs4.v
theories/FloProofs5.v
theories/FloProofs6.v
theories/FloProps.v
theories/RadModel.v
theories/RadSpec.v
theories/RadProofs.v
theories/RadProofs2.v
theories/RadProofs3.v
theories/RadProofs4.v
theories/RadProofs5.v
theories/RadProofs6.v
theories/RadProofs7.v
theories/RadProofs8.v
theories/RadProps.v
theories/ExcModel.v
theories/ExcSpec.v
theories/ExcProofs.v
theories/ExcProofs2.v
theories/ExcProofs3.v
theories/ExcProofs4.v
theories/ExcProofs5.v
theories/ExcProofs6.v
theories/ExcProofs7.v
theories/ExcProofs8.v
theories/ExcProps.v
theories/AmModel.v
theories/AmSpec.v
theories/AmProofs.v
theories/AmProofs2.v
theories/AmProofs3.v
theories/AmProofs4.v
theories/AmProofs5.v
theories/AmProps.v
theories/MorModel.v
theories/MorSpec.v
theories/MorProofs.v
theories/MorProofs2.v
theories/MorProofs3.v
theories/MorProofs4.v
theories/MorProofs5.v
theories/MorProofs6.v
theories/MorProofs7.v
theories/MorProps.v
theories/LnkModel.v
theories/LnkSpec.v
theories/LnkProofs.v
theories/LnkProofs2.v
theories/LnkProofs3.v
theories/LnkProofs4.v
theories/LnkProofs5.v
theories/LnkProofs6.v
theories/LnkProps.v
theories/EnvModel.v
theories/EnvSpec.v
theories/EnvProofs.v
theories/EnvProofs2.v
theories/EnvProps.v
theories/TimModel.v
theories/TimSpec.v
theories/TimProofs.v
theories/TimProofs2.v
theories/TimProps.v
theories/GgrModel.v
theories/GgrSpec.v
theories/GgrProofs.v
theories/GgrProps.v
theories/StcModel.v
theories/StcSpec.v
theories/StcProofs.v
theories/StcProofs2.v
theories/StcProofs3.v
theories/StcProps.v
theories/AstModel.v
theories/ConModel.v
theories/AstSpec.v
theories/AstProofs.v
theories/AstProofs2.v
theories/AstProofs3.v
theories/AstProofs4.v
theories/ConProofs.v
theories/AstProps.v
theories/DynModel.v
theories/DynSpec.v
theories/DynProofs.v
theories/DynProps.v
theories/DynRegModel.v
theories/DynRegProps.v
theories/PolModel.v
theories/PolSpec.v
theories/PolProofs.v
theories/PolProps.v
theories/IoModel.v
theories/IoSpec.v
theories/IoProofs.v
theories/IoProps.v
theories/EvModel.v
theories/EvSpec.v
theories/EvProofs.v
theories/EvProps.v
