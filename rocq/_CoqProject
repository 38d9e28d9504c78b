-Q theories Verif
theories/FinLib.v
theories/UniModel.v
theories/UniSpec.v
theories/UniProofs.v
theories/B64Proofs.v
theories/UniProps.v
theories/LivelockModel.v
theories/LivelockSpec.v
theories/GridLivelock.v
theories/LiveGrid.v
theories/LivelockProofs.v
theories/LivelockProofs2.v
theories/LivelockProofs3.v
theories/LivelockProps.v
theories/TileModel.v
theories/TileSpec.v
theories/TileProofs.v
theories/TileProofs2.v
theories/AdjModel.v
theories/AdjProofs.v
theories/TileProps.v
theories/Radix.v
theories/CanonModel.v
theories/CanonSpec.v
theories/CanonProofs.v
theories/CanonProps.v
theories/SynthModel.v
theories/SynthSpec.v
theories/SynthProofs.v
theories/SynthProps.v
theories/ConflictSpec.v
theories/ConflictModel.v
theories/ConflictProofs.v
theories/ConflictProps.v
theories/DeadModel.v
theories/DeadSpec.v
theories/DeadProofs.v
theories/DeadProps.v
theories/Sample.v
theories/ReachModel.v
theories/ReachSpec.v
theories/ReachProofs.v
theories/ReachProps.v
theories/StabModel.v
theories/StabSpec.v
theories/StabProofs.v
theories/StabProofs2.v
theories/StabProofs3.v
theories/StabProofs4.v
theories/StabProps.v
theories/StabProps2.v
theories/FmlaModel.v
theories/FmlaSpec.v
theories/FmlaProofs.v
theories/FmlaProofs2.v
theories/FmlaProofs3.v
theories/FmlaProofs4.v
theories/FmlaProps.v
theories/UdpModel.v
theories/UdpSpec.v
theories/UdpProofs.v
theories/UdpProofs2.v
theories/UdpProofs3.v
theories/UdpRng.v
theories/UdpSample.v
theories/UdpProofs4.v
theories/UdpProofs5.v
theories/UdpProps.v
theories/ActModel.v
theories/ActSpec.v
theories/ActProofs.v
theories/ActProofs2.v
theories/ActProofs3.v
theories/ActProofs4.v
theories/ActProps.v
theories/RankModel.v
theories/RankSpec.v
theories/RankProofs.v
theories/RankProofs2.v
theories/RankProofs3.v
theories/RankProps.v
theories/SearchModel.v
theories/SearchSpec.v
theories/SearchProofs.v
theories/SearchProofs2.v
theories/SearchProofs3.v
theories/SearchProofs4.v
theories/SearchEx.v
theories/SearchProps.v
theories/SearchProofs5.v
theories/SearchProofs6.v
theories/SearchProofs7.v
theories/SearchProofs8.v
theories/SearchProofs9.v
theories/SearchProps2.v
theories/NetModel.v
theories/NetSpec.v
theories/NetProofs.v
theories/NetProofs2.v
theories/NetProofs3.v
theories/NetProofs4.v
theories/NetProofs5.v
theories/NetProps.v
theories/NetProps2.v
theories/CandModel.v
theories/CandSpec.v
theories/CandProofs.v
theories/CandProofs2.v
theories/CandProps.v
theories/CandProps2.v
theories/GivenSpec.v
theories/GivenProofs.v
theories/GivenProps.v
theories/GivenProps2.v
theories/IntModel.v
theories/IntSpec.v
theories/IntProofs.v
theories/IntProps.v
theories/ExprModel.v
theories/ExprSpec.v
theories/ExprProofs.v
theories/ExprProofs2.v
theories/ExprProps.v
theories/CmdModel.v
theories/CmdSpec.v
theories/CmdProofs2.v
theories/CmdProofs.v
theories/CmdProofs3.v
theories/CmdProofs4.v
theories/CmdProps.v
theories/SyncSpec.v
theories/SyncProofs.v
theories/SyncProofs2.v
theories/SyncProps.v
theories/ParseModel.v
theories/ParseSpec.v
theories/ParseProofs.v
theories/ParseProofs2.v
theories/ParseProofs3.v
theories/ParseProofs4.v
theories/ParseProofs5.v
theories/ParseProps.v
theories/AccessModel.v
theories/AccessSpec.v
theories/AccessProofs.v
theories/AccessProofs2.v
theories/AccessProps.v
theories/PrintModel.v
theories/PrintSpec.v
theories/PrintProofs.v
theories/PrintProofs2.v
theories/PrintProofs3.v
theories/PrintProofs4.v
theories/PrintProps.v
theories/UniringModel.v
theories/UniringSpec.v
theories/UniringProofs.v
theories/UniringProofs2.v
theories/UniringProofs3.v
theories/UniringProofs4.v
theories/UniringProofs5.v
theories/UniringProps.v
theories/LivelockProofs4.v
theories/LiveTorus.v
theories/GenModel.v
theories/GenSpec.v
theories/GenProofs.v
theories/GenProofs2.v
theories/GenProofs3.v
theories/GenProofs4.v
theories/GenProofs5.v
theories/GenProofs6.v
theories/GenProofs7.v
theories/GenProofs8.v
theories/GenProofs9.v
theories/GenProofs10.v
theories/GenProofs11.v
theories/GenProps.v
theories/GenProps2.v
theories/UgenModel.v
theories/UgenProofs.v
theories/UgenSpec.v
theories/UgenProofs2.v
theories/UgenProofs3.v
theories/UgenProofs4.v
theories/UgenProofs5.v
theories/UgenProofs6.v
theories/UgenProofs7.v
theories/UgenProps.v
theories/UgenProps2.v
theories/ParModel.v
theories/ParSpec.v
theories/ParProofs.v
theories/ParProofs2.v
theories/ParProofs3.v
theories/ParProps.v
theories/MpiModel.v
theories/MpiProps.v
theories/SimModel.v
theories/SimSpec.v
theories/SimProofs.v
theories/SimProofs2.v
theories/SimProofs3.v
theories/SimProps.v
theories/ClassModel.v
theories/ClassSpec.v
theories/ClassProofs.v
theories/ClassProps.v
theories/WangModel.v
theories/WangSpec.v
theories/WangProofs.v
theories/WangProofs2.v
theories/WangProps.v
theories/UtextModel.v
theories/UtextSpec.v
theories/UtextProofs.v
theories/UtextProps.v
theories/PmlModel.v
theories/PmlSpec.v
theories/PmlProofs.v
theories/PmlProofs2.v
theories/PmlProofs3.v
theories/PmlProofs4.v
theories/PmlProofs5.v
theories/PmlProps.v
theories/PickModel.v
theories/PickSpec.v
theories/PickProofs.v
theories/PickProofs2.v
theories/PickProofs3.v
theories/PickProofs4.v
theories/PickProofs5.v
theories/PickProps.v
theories/PickProps2.v
theories/DeclModel.v
theories/DeclSpec.v
theories/DeclProofs.v
theories/DeclProofs2.v
theories/DeclProofs3.v
theories/DeclProofs4.v
theories/DeclProps.v
theories/RsynModel.v
theories/RsynSpec.v
theories/RsynProofs.v
theories/RsynProps.v
theories/RsynProps2.v
theories/HeadModel.v
theories/HeadSpec.v
theories/HeadProofs.v
theories/HeadProofs2.v
theories/HeadProofs3.v
theories/HeadProps.v
theories/ClashModel.v
theories/ClashSpec.v
theories/ClashProofs.v
theories/ClashProps.v
theories/InstModel.v
theories/InstSpec.v
theories/InstProofs.v
theories/InstProofs2.v
theories/InstProps.v
theories/SameModel.v
theories/SameSpec.v
theories/SameProofs.v
theories/SameProps.v
theories/PlaModel.v
theories/PlaSpec.v
theories/PlaProofs.v
theories/PlaProofs2.v
theories/PlaProps.v
theories/IntegModel.v
theories/IntegSpec.v
theories/IntegProofs.v
theories/IntegProps.v
theories/StyleModel.v
theories/StyleSpec.v
theories/StyleProofs.v
theories/StyleProofs2.v
theories/StyleProofs3.v
theories/StyleProps.v
theories/GraphModel.v
theories/GraphSpec.v
theories/GraphProofs.v
theories/GraphProps.v
theories/GuessModel.v
theories/GuessSpec.v
theories/GuessProofs.v
theories/GuessProofs2.v
theories/GuessProps.v
theories/BiringModel.v
theories/BiringSpec.v
theories/BiringProofs.v
theories/BiringProofs2.v
theories/BiringProofs3.v
theories/BiringProps.v
theories/BiringEnumModel.v
theories/BiringEnumSpec.v
theories/BiringEnumProofs.v
theories/BiringEnumProofs2.v
theories/BiringEnumProps.v
theories/BiringFilterModel.v
theories/BiringFilterProps.v
theories/BiringPairProofs.v
theories/BiringPairProofs2.v
theories/BiringPairProps.v
theories/BiringPictureModel.v
theories/BiringPictureProps.v
