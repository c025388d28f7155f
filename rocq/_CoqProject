-Q theories Verif
theories/Num.v
theories/NumXR.v
theories/NumB32.v
theories/Glam.v
theories/Transform2.v
theories/Shapes2.v
theories/Gjk.v
theories/Detect2.v
theories/Misc.v
theories/Angle.v
theories/Spec.v
theories/SpecLink.v
theories/P_Base.v
theories/P_Transform.v
theories/Props_Transform.v
theories/Props_Build.v
theories/P_Shapes.v
theories/Props_Shapes.v
theories/P_Geo.v
theories/P_Analytic.v
theories/P_Analytic2.v
theories/Props_Analytic.v
theories/Props_BoxBall.v
theories/Props_Collider.v
theories/P_GjkShape.v
theories/Props_GjkShape.v
theories/SpecGjk.v
theories/P_Gjk.v
theories/P_Gjk2.v
theories/P_Gjk3.v
theories/P_Dist.v
theories/P_Scene.v
theories/Props_Gjk.v
theories/Props_Dist.v
theories/P_Box.v
theories/P_Ball.v
theories/P_Epa.v
theories/P_BallEpa.v
theories/P_Deep.v
theories/P_Vec.v
theories/Props_Epa.v
theories/Publisher.v
theories/Rect.v
theories/Tilemap.v
theories/Props_Util.v
theories/Props_Tilemap.v
theories/Props_NoPanic.v
theories/Props_Deep.v
theories/Props_Box.v
theories/Props_Ball.v
theories/Props_TileGeo.v
theories/P_B32.v
theories/Props_F32.v
theories/Props_F32b.v
theories/Props_Approx.v
theories/Props_Lerp.v
theories/Props_F32Gjk.v
theories/Props_BallF32.v
theories/Props_Resolve.v
theories/Props_F32Ball.v
theories/P_F32Box.v
theories/Props_F32Box.v
theories/Col3.v
theories/P_Geo3.v
theories/P_3d.v
theories/Props_3dTransform.v
theories/Props_Bevy.v
theories/Props_3d.v
theories/Props_3dDefects.v
theories/Props_3dWorld.v
theories/Props_3dPoint.v
theories/Props_Scaling.v
theories/P_Grid32.v
theories/P_Grid32b.v
theories/P_Grid32e.v
theories/P_Grid32f.v
theories/P_Grid32g.v
theories/P_Grid32h.v
theories/P_Grid32i.v
theories/P_Grid32j.v
theories/P_Grid32c.v
theories/P_Grid32d.v
theories/P_Grid32k.v
theories/Props_Grid32.v
theories/Props_Grid32v.v
theories/Props_Grid32s.v
theories/P_Drift.v
theories/Spec32.v
theories/P_Closed32.v
theories/Props_Drift.v
theories/Props_Closed32.v
theories/P_Deep32.v
theories/P_Deep32b.v
theories/P_Deep32c.v
theories/P_Deep32d.v
theories/P_Deep32e.v
theories/P_Deep32f.v
theories/P_Deep32g.v
theories/Props_Deep32.v
theories/P_Gap32.v
theories/P_Gap32b.v
theories/P_Gap32c.v
theories/Props_Gap32.v
theories/Props_Sdf32.v
theories/Props_Tile32.v
theories/Props_Ext32.v
theories/Spec32s.v
theories/P_Space32.v
theories/Props_Space32.v
theories/P_Quat32.v
theories/Props_Quat32.v
theories/Props_Ext3.v
theories/P_Drift3.v
theories/Props_Drift3.v
theories/Extra2.v
theories/Props_Ellipse.v
theories/Props_Minkowski.v
theories/Props_BevyIso.v
theories/Extra3.v
theories/Props_Sum3.v
theories/Props_ApproxVec.v
theories/Machine.v
theories/Props_Machine.v
theories/Props_DriftScaled.v
theories/Props_DriftScaled2.v
theories/Props_DriftScaled3.v
theories/Props_DriftScaled4.v
theories/Props_Cylinder.v
theories/Props_Cylinder32.v
theories/Props_CylSdf32.v
