-Q theories Verif
theories/Prelude.v
theories/PreludeLemmas.v
theories/PointCloudModel.v
theories/PointCloudSpec.v
theories/PointCloudProofs.v
theories/PointCloudProps.v
theories/GhostingModel.v
theories/LexMatchProofs.v
theories/GhostingProofs.v
theories/GhostingProps.v
theories/Scatter.v
theories/SubMeshModel.v
theories/SubMeshProofs.v
theories/SubMeshProps.v
theories/EntitiesModel.v
theories/EntitiesProofs.v
theories/EntitiesProps.v
theories/RSum.v
theories/PackingModel.v
theories/PackingProofs.v
theories/PackingProps.v
theories/PackUProps.v
theories/AssemblyModel.v
theories/AssemblyProofs.v
theories/AssemblyProps.v
theories/CropModel.v
theories/CropProps.v
theories/LayoutModel.v
theories/LayoutProps.v
theories/CandidatesModel.v
theories/CandidatesProps.v
theories/RayMapModel.v
theories/RayMapProps.v
theories/ContactProblemModel.v
theories/ContactProblemProps.v
theories/OpsModel.v
theories/RealLemmas.v
theories/OpsProps.v
theories/GeomModel.v
theories/GeomProps.v
theories/NullspaceModel.v
theories/NullspaceProps.v
theories/QuadratureModel.v
theories/QuadratureProps.v
theories/NewtonModel.v
theories/NewtonProofs.v
theories/NewtonProps.v
theories/NewtonHistory.v
theories/NewtonHistoryProps.v
theories/MeshTieModel.v
theories/MeshTieProps.v
theories/MeshTieHistoryProps.v
theories/RayModel.v
theories/RayProps.v
theories/KernelModel.v
theories/MeshTieKernelModel.v
theories/KernelProofs.v
theories/ElasticityProps.v
theories/MeshTieKernelProofs.v
theories/KernelSpec.v
theories/MeshTieKernelProps.v
theories/PoissonKernelProofs.v
theories/PoissonKernelProps.v
theories/ContactKernelModel.v
theories/ContactKernelProofs.v
theories/ContactKernelSpec.v
theories/ContactCurveProofs.v
theories/ContactKernelProps.v
theories/FrictionKernelProofs.v
theories/FrictionKernelProps.v
theories/ContactExamples.v
theories/RigidKernelModel.v
theories/RigidKernelProps.v
theories/RigidExamples.v
theories/TieWeakProps.v
theories/CoefficientsModel.v
theories/CoefficientsProps.v
theories/SystemSpec.v
theories/TieSystemModel.v
theories/TieSystemProofs.v
theories/TieSystemProps.v
theories/TieSystemExamples.v
theories/DistanceModel.v
theories/GapModel.v
theories/GapSpec.v
theories/DistanceProofs.v
theories/GapProps.v
theories/PullBackProps.v
theories/ContactNormalProps.v
theories/ShortestGapProps.v
theories/GapExamples.v
theories/ContactSystemModel.v
theories/ContactSystemSpec.v
theories/ContactSystemProofs.v
theories/ContactSystemProps.v
theories/ContactSystemExamples.v
theories/SystemBalanceSpec.v
theories/SystemBalanceProps.v
theories/SystemBalanceExamples.v
theories/CropMethodModel.v
theories/CropMethodProps.v
theories/SplitBoxModel.v
theories/SplitBoxSpec.v
theories/SplitBoxProps.v
theories/SplitBoxCurves.v
theories/BasisModel.v
theories/BasisSpec.v
theories/BasisProps.v
theories/BasisExamples.v
theories/BasisBalanceProps.v
theories/WriterModel.v
theories/WriterProps.v
theories/ContactMeshModel.v
theories/ContactMeshSpec.v
theories/ContactMeshProps.v
theories/ContactMeshExamples.v
theories/OneSidedModel.v
theories/OneSidedProps.v
theories/OneSidedExamples.v
theories/SnesModel.v
theories/SnesProps.v
theories/NewtonGhostProps.v
theories/RigidDriverModel.v
theories/RigidDriverProps.v
theories/RigidDriverExamples.v
theories/RayStorageModel.v
theories/RayStorageProps.v
theories/TreeMeshModel.v
theories/TreeMeshProps.v
theories/TreeCurveProps.v
theories/CircumModel.v
theories/CircumProps.v
theories/WeakDirichletModel.v
theories/WeakDirichletProps.v
theories/KrylovModel.v
theories/KrylovProps.v
theories/MeshPairModel.v
theories/MeshPairProps.v
theories/ContactObjectModel.v
theories/ContactObjectProps.v
theories/TieConstructModel.v
theories/TieConstructProps.v
theories/ContactWeakProps.v
theories/SystemWeakProps.v
theories/SplitBox3DModel.v
theories/SplitBox3DSpec.v
theories/SplitBox3DProps.v
theories/ParallelSearchProps.v
theories/ParallelSearchExamples.v
theories/MonotoneProps.v
theories/MonotoneExamples.v
theories/TieFormProofs.v
theories/TieFormProps.v
theories/TieFormExamples.v
theories/ActiveSetProps.v
theories/ActiveSetExamples.v
theories/ContactFormProps.v
theories/ContactFormExamples.v
theories/DistributedProofs.v
theories/DistributedProps.v
theories/DistributedExamples.v
theories/ContactEnergyProps.v
theories/UniqueProps.v
theories/UniqueExamples.v
theories/OrthoModel.v
theories/OrthoProofs.v
theories/OrthoProps.v
theories/RigidBalanceProps.v
theories/RigidBalanceExamples.v
theories/KernelDataModel.v
theories/KernelDataProps.v
theories/FrameProofs.v
theories/FrameProps.v
theories/FrameExamples.v
theories/RayFacetProps.v
theories/RaySearchModel.v
theories/RayFrameProps.v
theories/MeshFrameProofs.v
theories/SearchFrameProofs.v
theories/SearchFrameProps.v
theories/SearchFrameExamples.v
theories/RayGapProps.v
theories/RayStraightProps.v
theories/MeshContactModel.v
theories/MeshContactProps.v
theories/MeshContactExamples.v
theories/FacetPlaneProofs.v
theories/MeshGapProps.v
theories/MeshGapExamples.v
theories/OldContactMeshModel.v
theories/OldContactMeshProps.v
theories/FixedPointProofs.v
theories/ExistenceProps.v
theories/ExistenceExamples.v
theories/NewtonLocalProps.v
theories/NewtonLocalExamples.v
theories/OneSidedSystemModel.v
theories/OneSidedSystemProps.v
theories/OneSidedSystemExamples.v
theories/NewtonExactProps.v
theories/OneSidedSolveModel.v
theories/OneSidedSolveProps.v
theories/OneSidedSolveExamples.v
theories/MeshOppositeProps.v
theories/MeshOppositeExamples.v
theories/NewtonFirstStep.v
theories/RigidSystemModel.v
theories/RigidSystemProps.v
theories/RigidSystemExamples.v
theories/RigidSolveModel.v
theories/RigidSolveProps.v
theories/RigidSolveExamples.v
theories/LoadStepModel.v
theories/LoadStepProps.v
theories/LoadStepExamples.v
theories/ParametersProps.v
theories/LiftModel.v
theories/LiftProps.v
theories/LiftExamples.v
theories/LinearLiftProps.v
theories/LiftStepModel.v
theories/LiftStepProps.v
theories/LiftStepExamples.v
theories/WriteEventModel.v
theories/WriteEventProps.v
theories/WriteEventExamples.v
theories/FacetProjectionModel.v
theories/FacetProjectionProps.v
theories/ConvertModel.v
theories/ConvertProps.v
theories/MeshFilesModel.v
theories/MeshFilesProps.v
theories/MeshFilesEnd.v
