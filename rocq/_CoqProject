-Q theories Verif

theories/Outcome.v
theories/Num.v
theories/ListAux.v
theories/Swath_Model.v
theories/Swath_Spec.v
theories/Swath_Proofs.v
theories/Swath_Proofs2.v
theories/Swath_Proofs3.v
theories/Swath_Props.v
theories/Swath_Props2.v
theories/Swath_Props3.v
theories/Swath_Tests.v
theories/Graph_Model.v
theories/Graph_Spec.v
theories/Graph_Proofs.v
theories/Graph_Proofs2.v
theories/Graph_Proofs3.v
theories/Graph_Proofs4.v
theories/Graph_Props.v
theories/Graph_Tests.v
theories/Point_Model.v
theories/Graph2D_Model.v
theories/Graph2D_Spec.v
theories/Graph2D_Proofs.v
theories/Graph2D_Proofs2.v
theories/Graph2D_Props.v
theories/Graph2D_Props2.v
theories/Route_Model.v
theories/Route_Spec.v
theories/Route_Proofs.v
theories/Route_Props.v
theories/RoutePlanner_Model.v
theories/RoutePlanner_Spec.v
theories/RoutePlanner_Proofs.v
theories/RoutePlanner_Proofs2.v
theories/RoutePlanner_Proofs3.v
theories/RoutePlanner_Proofs4.v
theories/RoutePlanner_Proofs5.v
theories/RoutePlanner_Proofs6.v
theories/RoutePlanner_Props.v
theories/RoutePlanner_Spec2.v
theories/RoutePlanner_Proofs7.v
theories/RoutePlanner_Proofs8.v
theories/RoutePlanner_Props2.v
theories/RoutePlanner_Spec3.v
theories/RoutePlanner_Proofs9.v
theories/RoutePlanner_Props3.v
theories/RoutePlanner_Spec4.v
theories/RoutePlanner_Proofs10.v
theories/RoutePlanner_Props4.v
theories/Angle_Model.v
theories/Angle_Spec.v
theories/Angle_Proofs.v
theories/Angle_Proofs2.v
theories/Angle_Props.v
theories/Angle_Props2.v
theories/Objective_Model.v
theories/Objective_Spec.v
theories/Objective_Proofs.v
theories/Objective_Proofs2.v
theories/Objective_Props.v
theories/Objective_Props2.v
theories/SwathGen_Model.v
theories/SwathGen_Spec.v
theories/SwathGen_Proofs.v
theories/SwathGen_Proofs2.v
theories/SwathGen_Props.v
theories/SwathGen_Props2.v
theories/Spline_Model.v
theories/Spline_Spec.v
theories/Spline_Proofs.v
theories/Spline_Props.v
theories/Path_Model.v
theories/Path_Spec.v
theories/Path_Proofs.v
theories/Path_Proofs2.v
theories/Path_Props.v
theories/Path_Proofs3.v
theories/Path_Props2.v
theories/Path_Props3.v
theories/Path_Props4.v
theories/Robot_Model.v
theories/Robot_Props.v
theories/Turning_Model.v
theories/Turning_Spec.v
theories/Turning_Proofs.v
theories/Turning_Props.v
theories/Turning_Props2.v
theories/PathPlanning_Model.v
theories/PathPlanning_Spec.v
theories/PathPlanning_Proofs.v
theories/PathPlanning_Proofs2.v
theories/PathPlanning_Props.v
theories/PathPlanning_Proofs3.v
theories/Container_Model.v
theories/Container_Spec.v
theories/Container_Proofs.v
theories/Container_Props.v
theories/Border_Model.v
theories/Border_Spec.v
theories/Border_Proofs.v
theories/Border_Props.v
theories/Text_Model.v
theories/Text_Spec.v
theories/Text_Proofs.v
theories/Field_Model.v
theories/Field_Spec.v
theories/Field_Proofs.v
theories/Field_Props.v
theories/Transform_Model.v
theories/Transform_Spec.v
theories/Transform_Proofs.v
theories/Transform_Props.v
theories/Transform_Props2.v
theories/Transform_Props3.v
theories/Transform_Props4.v
theories/Parser_Model.v
theories/Parser_Spec.v
theories/Parser_Proofs.v
theories/Parser_Props.v
theories/Parser_Props2.v
theories/Codec_Model.v
theories/Codec_Spec.v
theories/Point_Props.v
theories/Point_Props2.v
theories/Container_Props2.v
theories/Container_Props3.v
theories/Codec_Proofs.v
theories/Codec_Proofs2.v
theories/Codec_Proofs3.v
theories/Codec_Proofs4.v
theories/Codec_Props.v
theories/Codec_Props2.v
theories/Random_Model.v
theories/Random_Spec.v
theories/Random_Proofs.v
theories/Random_Props.v
theories/Alias_Model.v
theories/Alias_Spec.v
theories/Alias_Proofs.v
theories/Alias_Proofs2.v
theories/Alias_Proofs3.v
theories/Alias_Proofs4.v
theories/Alias_Proofs5.v
theories/Alias_Proofs6.v
theories/Alias_Proofs7.v
theories/Alias_Props.v
theories/Plan_Model.v
theories/Plan_Spec.v
theories/Plan_Proofs.v
theories/Plan_Proofs2.v
theories/Plan_Proofs3.v
theories/Plan_Proofs4.v
theories/Plan_Props.v
theories/Plan_Props2.v
theories/Decomp_Model.v
theories/Decomp_Spec.v
theories/Decomp_Proofs.v
theories/Decomp_Props.v
theories/Vis_Model.v
theories/Vis_Spec.v
theories/Vis_Proofs.v
theories/Vis_Props.v
theories/Ogr_Model.v
theories/Ogr_Spec.v
theories/Ogr_Proofs.v
theories/Ogr_Proofs2.v
theories/Ogr_Props.v
theories/Plan_Props3.v
theories/Sets_Model.v
theories/Sets_Spec.v
theories/Sets_Proofs.v
theories/Sets_Props.v
theories/Float_Props.v
theories/Curves_Model.v
theories/Curves_Spec.v
theories/Curves_Proofs.v
theories/Curves_Props.v
theories/Plan_Model2.v
theories/Plan_Props4.v
theories/Plan_Props5.v
theories/Plan_Spec2.v
theories/Plan_Proofs5.v
theories/Plan_Props6.v
theories/Plan_Props7.v
theories/Moves_Model.v
theories/Moves_Props.v
theories/CompleteTurn_Model.v
theories/CompleteTurn_Spec.v
theories/CompleteTurn_Proofs.v
theories/CompleteTurn_Proofs2.v
theories/CompleteTurn_Props.v
theories/Measures_Model.v
theories/Measures_Props.v
theories/Parts_Model.v
theories/Parts_Spec.v
theories/Parts_Proofs.v
theories/Parts_Proofs2.v
theories/Parts_Proofs3.v
theories/Parts_Props.v
theories/Best_Model.v
theories/Best_Props.v
theories/SwathGen_Spec2.v
theories/SwathGen_Proofs3.v
theories/SwathGen_Props3.v
theories/Field_Props2.v
theories/Graph2D_Props3.v
theories/Random_Props2.v
theories/Random_Props3.v
theories/Graph_Props2.v
theories/Holder_Model.v
theories/Holder_Spec.v
theories/Holder_Proofs.v
theories/Holder_Proofs2.v
theories/Holder_Proofs3.v
theories/Holder_Props.v
theories/RShare_Model.v
theories/RShare_Spec.v
theories/RShare_Proofs.v
theories/RShare_Proofs2.v
theories/RShare_Proofs3.v
theories/RShare_Proofs4.v
theories/RShare_Props.v
theories/Estimate_Spec.v
theories/Estimate_Props.v
theories/Drive_Spec.v
theories/Drive_Props.v
theories/Drive_Props2.v
theories/Drive_Props3.v
theories/SwathGen_Props4.v
theories/FloatErr_Proofs.v
theories/SwathGen_Props5.v
theories/FloatErr_Proofs2.v
theories/Path_Props5.v
theories/FloatErr_Proofs3.v
theories/FloatErr_Proofs4.v
theories/Path_Props6.v
theories/FloatErr_Proofs5.v
theories/Angle_Model2.v
theories/Angle_Props3.v
theories/Angle_Props4.v
theories/Angle_Model3.v
theories/Angle_Props5.v
theories/Float_Props3.v
theories/Float_Props4.v
theories/Float_Props5.v
theories/Float_Props6.v
theories/Float_Props7.v
theories/Float_Props2.v
theories/Transform_Model2.v
theories/Transform_Props5.v
theories/Transform_Props6.v
theories/Border_Model2.v
theories/Border_Props2.v
theories/Best_Model2.v
theories/Best_Props2.v
theories/Best_Props3.v
theories/Best_Props4.v
