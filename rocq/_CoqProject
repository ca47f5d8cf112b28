-Q theories Verif
theories/Base.v
theories/RealBase.v
theories/Frontier_model.v
theories/Frontier_spec.v
theories/Frontier_proofs.v
theories/Frontier_props.v
theories/Grid_model.v
theories/Grid_spec.v
theories/Grid_proofs.v
theories/Grid_props.v
theories/AStar_model.v
theories/AStar_spec.v
theories/AStar_proofs.v
theories/AStar_opt_proofs.v
theories/AStarApi_model.v
theories/AStarApi_spec.v
theories/AStarApi_proofs.v
theories/Heuristic_model.v
theories/Heuristic_proofs.v
theories/AStar_props.v
theories/AStarN2_model.v
theories/AStarN2_spec.v
theories/AStarN2_proofs.v
theories/AStarN2_props.v
theories/Bidir_model.v
theories/Bidir_spec.v
theories/Bidir_proofs.v
theories/Bidir_opt_proofs.v
theories/Bidir_props.v
theories/Raster_model.v
theories/Raster_spec.v
theories/Raster_proofs.v
theories/Raster_props.v
theories/ObstacleMap_model.v
theories/ObstacleMap_spec.v
theories/ObstacleMap_proofs.v
theories/ObstacleMap_props.v
theories/Coords_model.v
theories/CoordsFloat_model.v
theories/Coords_proofs.v
theories/Coords_props.v
theories/Pose_model.v
theories/PoseFloat_model.v
theories/Pose_spec.v
theories/Pose_proofs.v
theories/Pose_props.v
theories/Hash_model.v
theories/Hash_proofs.v
theories/Hash_props.v
theories/Node_model.v
theories/Node_spec.v
theories/Node_proofs.v
theories/Node_props.v
theories/Singleton_model.v
theories/Singleton_proofs.v
theories/Singleton_props.v
theories/Cleanup_model.v
theories/Cleanup_spec.v
theories/Cleanup_proofs.v
theories/Cleanup_props.v
theories/Profiler_model.v
theories/Profiler_spec.v
theories/Profiler_proofs.v
theories/Profiler_props.v
theories/Straight_model.v
theories/Straight_spec.v
theories/Straight_proofs.v
theories/Straight_props.v
theories/Rrt_model.v
theories/Rrt_spec.v
theories/Rrt_proofs.v
theories/RrtStar_proofs.v
theories/Rrt_props.v
theories/Gvd_model.v
theories/Gvd_spec.v
theories/Gvd_proofs.v
theories/Gvd_opt_proofs.v
theories/PathCost_model.v
theories/PathCost_proofs.v
theories/Gvd_api_proofs.v
theories/Gvd_props.v
theories/StateSpace_model.v
theories/StateSpace_proofs.v
theories/StateSpace_props.v
theories/Validator_model.v
theories/Validator_spec.v
theories/Validator_proofs.v
theories/Validator_map_proofs.v
theories/Validator_props.v
theories/Smoother_model.v
theories/Smoother_spec.v
theories/Smoother_proofs.v
theories/SmootherGrad_model.v
theories/SmootherGrad_spec.v
theories/SmootherGrad_proofs.v
theories/Smoother_props.v
theories/Bicycle_model.v
theories/Bicycle_spec.v
theories/Bicycle_proofs.v
theories/Bicycle_props.v
theories/Composite_model.v
theories/Composite_spec.v
theories/Composite_proofs.v
theories/Composite_props.v
theories/Rs_model.v
theories/Rs_spec.v
theories/Rs_proofs.v
theories/RsWord_proofs.v
theories/RsSolver_proofs.v
theories/Rs_props.v
theories/ObstHeur_model.v
theories/ObstHeur_spec.v
theories/ObstHeur_proofs.v
theories/ObstHeur_props.v
theories/NonHol_model.v
theories/NonHol_spec.v
theories/NonHol_proofs.v
theories/NonHol_props.v
theories/Hybrid_model.v
theories/Hybrid_spec.v
theories/Hybrid_proofs.v
theories/HybridSample_proofs.v
theories/HybridCell_proofs.v
theories/ValidatorPart_proofs.v
theories/HybridPath_proofs.v
theories/HybridSafe_proofs.v
theories/HybridDemo_proofs.v
theories/HybridMap_proofs.v
theories/Hybrid_props.v
theories/Shape_model.v
theories/Shape_spec.v
theories/Shape_proofs.v
theories/Outline_proofs.v
theories/World_model.v
theories/World_spec.v
theories/World_proofs.v
theories/WorldClear_proofs.v
theories/Enter_proofs.v
theories/WorldPlan_proofs.v
theories/WorldDemo_proofs.v
theories/Shape_props.v
theories/World_props.v
theories/Planner_model.v
theories/Planner_spec.v
theories/Planner_proofs.v
theories/PlannerPath_proofs.v
theories/PlannerDemo_proofs.v
theories/Planner_props.v
theories/PlannerMap_proofs.v
theories/PlannerStale_proofs.v
theories/PlannerRepeat_proofs.v
theories/PlannerMap_props.v
theories/PlannerTable_proofs.v
theories/PlannerTable_props.v
theories/PlannerFail_proofs.v
theories/PlannerFail_props.v
theories/Visual_model.v
theories/Visual_spec.v
theories/Visual_proofs.v
theories/VisualCost_proofs.v
theories/Visual_props.v
theories/Query_model.v
theories/Query_proofs.v
theories/Query_props.v
theories/VisualGvd_proofs.v
theories/VisualGvd_props.v
theories/FrontierRel_proofs.v
theories/AStarMem_model.v
theories/AStarMem_spec.v
theories/AStarMem_proofs.v
theories/AStarMemHybrid_proofs.v
theories/AStarMem_props.v
theories/AStarSimple_proofs.v
theories/HybridSimple_proofs.v
theories/AStarSimple_props.v
theories/Rounded_spec.v
theories/RoundedSearch_proofs.v
theories/SearchRel_proofs.v
theories/CostFloat_model.v
theories/CostFloat_spec.v
theories/CostFloat_proofs.v
theories/CostFloatSearch_proofs.v
theories/CostFloatN2_proofs.v
theories/CostFloat_props.v
theories/CostEuclid_model.v
theories/CostEuclid_spec.v
theories/CostEuclid_proofs.v
theories/CostEuclid_props.v
theories/RsComplete_proofs.v
theories/RsCurve_spec.v
theories/RsCurve_proofs.v
theories/RsSym_proofs.v
theories/RsMetric_proofs.v
theories/RsCurve_props.v
theories/Explored_model.v
theories/Explored_proofs.v
theories/ExploredN2_proofs.v
theories/Explored_props.v
theories/GridInt_model.v
theories/GridInt_proofs.v
theories/GridInt_props.v
theories/ExploredBi_proofs.v
theories/ExploredBi_props.v
theories/RrtReach_spec.v
theories/RrtReach_proofs.v
theories/RrtReach_props.v
theories/BidirRel_proofs.v
theories/BidirFloat_model.v
theories/BidirFloat_spec.v
theories/BidirFloat_proofs.v
theories/BidirFloat_props.v
theories/TreeMem_model.v
theories/TreeMem_spec.v
theories/TreeMem_proofs.v
theories/TreeMem_props.v
theories/RrtMem_model.v
theories/RrtMem_spec.v
theories/RrtMem_proofs.v
theories/RrtMem_props.v
theories/BidirMem_model.v
theories/BidirMem_spec.v
theories/BidirMem_proofs.v
theories/BidirMem_props.v
theories/ProfScope_model.v
theories/ProfScope_spec.v
theories/ProfScope_proofs.v
theories/ProfScope_props.v
theories/CoordsFloat_proofs.v
theories/CoordsFloat_props.v
theories/HybridCost_spec.v
theories/HybridCost_proofs.v
theories/HybridCost_props.v
theories/SmootherCost_spec.v
theories/SmootherSum_proofs.v
theories/SmootherDescent_spec.v
theories/SmootherDescent_proofs.v
theories/SmootherDescent_props.v
theories/SmootherCost_proofs.v
theories/SmootherCost_props.v
theories/HeurObj_model.v
theories/HeurObj_spec.v
theories/HeurObj_proofs.v
theories/HeurObj_props.v
theories/GridSide_spec.v
theories/GridSide_proofs.v
theories/GridDraw_proofs.v
theories/GridWorld_proofs.v
theories/GridSide_props.v
theories/AStarTree_spec.v
theories/AStarTree_proofs.v
theories/AStarTree_props.v
theories/Store_model.v
theories/Store_spec.v
theories/Store_proofs.v
theories/Store_props.v
theories/RandomInit_model.v
theories/RandomInit_proofs.v
theories/RandomInit_props.v
theories/AStarInf_spec.v
theories/AStarInf_proofs.v
theories/PlaneTest_model.v
theories/PlaneTest_proofs.v
theories/Zeno_proofs.v
theories/AStarInf_props.v
theories/UnitTests_props.v
theories/BidirInf_proofs.v
theories/PlaneBi_proofs.v
theories/Twin_proofs.v
theories/BidirInf_props.v
theories/GridBi_spec.v
theories/GridBi_proofs.v
theories/GridBi_props.v
theories/StraightFloat_model.v
theories/StraightFloat_proofs.v
theories/StraightFloat_props.v
theories/AngleFloat_model.v
theories/AngleFloat_proofs.v
theories/AngleFloat_props.v
theories/SampleFloat_model.v
theories/SampleFloat_proofs.v
theories/SampleFloat_props.v
theories/ValidatorFloat_model.v
theories/ValidatorFloat_proofs.v
theories/ValidatorFloat_props.v
theories/HybridDefined_spec.v
theories/HybridDefined_proofs.v
theories/HybridOutside_proofs.v
theories/HybridDefined_props.v
theories/Ridge_spec.v
theories/Ridge_proofs.v
theories/Ridge_props.v
theories/RidgeMap_spec.v
theories/RidgeMap_proofs.v
theories/RidgeMap_props.v
theories/BidirSub_proofs.v
theories/BidirNear_proofs.v
theories/BidirNearFloat_proofs.v
theories/BidirNear_props.v
theories/ObstHeurRound_proofs.v
theories/ObstHeurFloat_model.v
theories/ObstHeurFloat_spec.v
theories/ObstHeurFloat_proofs.v
theories/ObstHeurFloat_props.v
theories/PathCostFloat_model.v
theories/PathCostFloat_proofs.v
theories/PathCostFloat_props.v
theories/StateValidFloat_model.v
theories/StateValidFloat_spec.v
theories/StateValidFloat_proofs.v
theories/StateValidFloat_props.v
theories/SteerFloat_model.v
theories/SteerFloat_spec.v
theories/RrtAny_proofs.v
theories/SteerFloat_proofs.v
theories/SteerFloat_props.v
theories/SteeringFloat_model.v
theories/SteeringFloat_spec.v
theories/SteeringFloat_proofs.v
theories/SteeringFloat_props.v
theories/CellFloat_model.v
theories/CellFloat_spec.v
theories/CellFloat_proofs.v
theories/CellFloat_props.v
theories/NonHolFloat_model.v
theories/NonHolFloat_spec.v
theories/NonHolFloat_proofs.v
theories/NonHolFloat_props.v
theories/CompositeFloat_model.v
theories/CompositeFloat_spec.v
theories/CompositeFloat_proofs.v
theories/CompositeFloat_props.v
theories/RsFloat_model.v
theories/RsFloat_spec.v
theories/RsFloat_proofs.v
theories/RsFloat_props.v
theories/RsPoseFloat_model.v
theories/RsPoseFloat_spec.v
theories/RsPoseFloat_proofs.v
theories/RsPoseFloat_props.v
theories/PathSampleFloat_model.v
theories/PathSampleFloat_spec.v
theories/PathSampleFloat_proofs.v
theories/PathSampleFloat_props.v
theories/HybridShort_spec.v
theories/HybridShort_proofs.v
theories/HybridShort_props.v
theories/VoroCostFloat_model.v
theories/VoroCostFloat_spec.v
theories/VoroCostFloat_proofs.v
theories/VoroCostFloat_props.v
theories/CompositeCusps_proofs.v
theories/RsCostFloat_model.v
theories/RsCostFloat_spec.v
theories/RsCostFloat_proofs.v
theories/RsCostFloat_props.v
theories/SteerInputFloat_model.v
theories/SteerInputFloat_spec.v
theories/SteerInputFloat_proofs.v
theories/SteerInputFloat_props.v
theories/ConnectFloat_model.v
theories/ConnectFloat_spec.v
theories/ConnectFloat_proofs.v
theories/ConnectFloat_props.v
theories/CollisionFloat_model.v
theories/CollisionFloat_spec.v
theories/CollisionFloat_proofs.v
theories/CollisionFloat_props.v
