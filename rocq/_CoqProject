-Q theories Verif
theories/Base.v
theories/QuatModel.v
theories/QuatProofs.v
theories/QuatMatProofs.v
theories/VecModel.v
theories/VecProofs.v
theories/RotModel.v
theories/RotSpec.v
theories/RotProofs.v
theories/ExpProofs.v
theories/ExpDeriv.v
theories/Prop_Rotation.v
theories/PolyModel.v
theories/PolyProofs.v
theories/Prop_Poly.v
theories/UtilModel.v
theories/UtilSpec.v
theories/UtilProofs.v
theories/Prop_Util.v
theories/BvhModel.v
theories/BvhSpec.v
theories/KdopProofs.v
theories/BvhProofs.v
theories/BvhRefit.v
theories/BvhTraverse.v
theories/Prop_Geometry.v
theories/GridModel.v
theories/GridProofs.v
theories/Prop_Grid.v
theories/BaryModel.v
theories/VolModel.v
theories/VolSpec.v
theories/ListProofs.v
theories/VolProofs.v
theories/Prop_Bary.v
theories/CircProofs.v
theories/SubdivProofs.v
theories/Prop_Volume.v
theories/HashModel.v
theories/HashProofs.v
theories/SurfModel.v
theories/SurfSpec.v
theories/SurfProofs.v
theories/Prop_Surface.v
theories/Prop_Hash.v
theories/ProxModel.v
theories/ProxSpec.v
theories/ProxProofs.v
theories/Prop_Prox.v
theories/SolverModel.v
theories/SolverSpec.v
theories/SolverProofs.v
theories/ColorModel.v
theories/ColorProofs.v
theories/Prop_Solver.v
theories/RigidTypes.v
theories/CollModel.v
theories/StepModel.v
theories/StepProofs.v
theories/StepProofs2.v
theories/RigidSpec.v
theories/ReadySpec.v
theories/ReadyProofs.v
theories/Prop_Step.v
theories/ConSpec.v
theories/ConProofs.v
theories/ConProofs2.v
theories/FrameProofs.v
theories/Prop_Constraints.v
theories/Prop_Contacts.v
theories/Prop_Hinges.v
theories/MassModel.v
theories/MassSpec.v
theories/MassProofs.v
theories/MassProofs2.v
theories/TetIntegral.v
theories/Prop_Mass.v
theories/ApiModel.v
theories/ApiSpec.v
theories/ApiProofs.v
theories/Prop_Api.v
theories/Prop_Api2.v
theories/IkModel.v
theories/IkSpec.v
theories/IkProofs.v
theories/IkPose.v
theories/IkDeriv.v
theories/IkJac.v
theories/IkGrad.v
theories/IkHess.v
theories/IkHess2.v
theories/IkFd.v
theories/FdLimits.v
theories/IkCont.v
theories/IkFd2.v
theories/Prop_Ik.v
theories/Prop_Ik2.v
theories/Prop_Ik3.v
theories/MechModel.v
theories/MechSpec.v
theories/MechProofs.v
theories/PolarProofs.v
theories/Prop_Mech.v
theories/FemModel.v
theories/FemSpec.v
theories/FemProofs.v
theories/FemProofs2.v
theories/Prop_Fem.v
theories/Prop_Fem2.v
theories/SoftModel.v
theories/SoftSpec.v
theories/SoftProofs.v
theories/SoftProofs2.v
theories/SoftReach.v
theories/SoftProofs3.v
theories/SoftProofs4.v
theories/Prop_Soft.v
theories/Prop_Soft2.v
theories/SoftFrame.v
theories/SoftDemo.v
theories/Prop_Soft3.v
theories/Prop_Soft4.v
theories/Prop_Soft5.v
theories/Prop_Soft6.v
theories/Prop_Soft7.v
theories/Prop_Soft8.v
theories/LawSpec.v
theories/LawProofs.v
theories/LawProofs2.v
theories/Prop_Law.v
theories/Prop_Law2.v
theories/Prop_Law3.v
theories/Prop_Detect.v
theories/Prop_Post.v
theories/SoftCollModel.v
theories/SoftCollProofs.v
theories/Prop_SoftColl.v
theories/Prop_SoftColl2.v
theories/Prop_SoftColl3.v
theories/CurvModel.v
theories/CurvProofs.v
theories/Prop_Curv.v
theories/SceneModel.v
theories/SceneSpec.v
theories/SceneProofs.v
theories/SceneMesh.v
theories/SceneShape.v
theories/SceneBox.v
theories/ScenePlace.v
theories/Prop_Scene.v
theories/Prop_SceneMesh.v
theories/Prop_SceneChain.v
theories/Prop_SceneLattice.v
theories/SceneTrap.v
theories/SceneWedge.v
theories/Prop_SceneTower.v
theories/StringModel.v
theories/StringSpec.v
theories/StringProofs.v
theories/StringProofs2.v
theories/Prop_String.v
theories/Prop_SceneArch.v
theories/Prop_SceneColosseum.v
theories/UrdfModel.v
theories/UrdfSpec.v
theories/UrdfProofs.v
theories/UrdfWalk.v
theories/UrdfStages.v
theories/Prop_Urdf.v
theories/Prop_UrdfReads.v
theories/XmlModel.v
theories/XmlSpec.v
theories/XmlProofs.v
theories/Prop_Xml.v
theories/Prop_Sweep.v
theories/SceneConical.v
theories/PillarModel.v
theories/Prop_ScenePillar.v
theories/SandboxModel.v
theories/Prop_SceneSandbox.v
theories/SceneCylinder.v
theories/PolesModel.v
theories/Prop_ScenePoles.v
theories/FitModel.v
theories/Prop_SceneFit.v
theories/JackModel.v
theories/Prop_SceneJack.v
