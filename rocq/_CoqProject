-Q theories Verif
theories/Appear.v
theories/Base.v
theories/Conc.v
theories/DataStructure.v
theories/Decimal.v
theories/Ex_Bare.v
theories/Ex_Disc.v
theories/Ex_Float.v
theories/Ex_Graphs.v
theories/Ex_Ieee.v
theories/Ex_Robot.v
theories/Ex_Slider.v
theories/Ex_Wheel.v
theories/Ex_Xml.v
theories/Export.v
theories/FloatArith.v
theories/Heap.v
theories/Ieee.v
theories/Import.v
theories/Inv.v
theories/Kin.v
theories/LoadFile.v
theories/Num.v
theories/Pf_Add.v
theories/Pf_Appear.v
theories/Pf_Base.v
theories/Pf_BaseC.v
theories/Pf_BaseD.v
theories/Pf_BaseO.v
theories/Pf_BaseTurn.v
theories/Pf_Batch.v
theories/Pf_Body.v
theories/Pf_Chain.v
theories/Pf_Column.v
theories/Pf_ComD.v
theories/Pf_Conc.v
theories/Pf_Ctor.v
theories/Pf_Dag.v
theories/Pf_Data.v
theories/Pf_Deriv.v
theories/Pf_Export.v
theories/Pf_FK.v
theories/Pf_Float1.v
theories/Pf_Float2.v
theories/Pf_Float3.v
theories/Pf_Float4.v
theories/Pf_Float5.v
theories/Pf_Float6.v
theories/Pf_Float7.v
theories/Pf_Float8.v
theories/Pf_Float9.v
theories/Pf_Frame.v
theories/Pf_Heap.v
theories/Pf_Heap2.v
theories/Pf_Heap3.v
theories/Pf_Heap4.v
theories/Pf_Hist.v
theories/Pf_Ieee1.v
theories/Pf_Ieee2.v
theories/Pf_Ieee3.v
theories/Pf_Ieee4.v
theories/Pf_Ieee5.v
theories/Pf_Ieee6.v
theories/Pf_Ieee7.v
theories/Pf_Ieee8.v
theories/Pf_Import.v
theories/Pf_Jac.v
theories/Pf_JacD.v
theories/Pf_Load.v
theories/Pf_Local.v
theories/Pf_Lock.v
theories/Pf_Loop.v
theories/Pf_Loose.v
theories/Pf_Mass.v
theories/Pf_Name.v
theories/Pf_Ops.v
theories/Pf_Pair.v
theories/Pf_Perm.v
theories/Pf_Pickle.v
theories/Pf_Pickle2.v
theories/Pf_Pose.v
theories/Pf_Print.v
theories/Pf_PrintX.v
theories/Pf_Py.v
theories/Pf_PyCalls.v
theories/Pf_PyRef.v
theories/Pf_Reach.v
theories/Pf_Reach2.v
theories/Pf_Read.v
theories/Pf_Real.v
theories/Pf_Recall.v
theories/Pf_Recall2.v
theories/Pf_Relative.v
theories/Pf_Rigid.v
theories/Pf_Rot.v
theories/Pf_Rows.v
theories/Pf_Rp.v
theories/Pf_Rpy.v
theories/Pf_Safe.v
theories/Pf_Saved.v
theories/Pf_Shape.v
theories/Pf_Show.v
theories/Pf_Stale.v
theories/Pf_Str.v
theories/Pf_Total.v
theories/Pf_Turn.v
theories/Pf_Unit.v
theories/Pf_Urdf.v
theories/Pf_Velocity.v
theories/Pf_Velocity2.v
theories/Pf_Velocity3.v
theories/Pf_Velocity4.v
theories/Pf_Velocity5.v
theories/Pf_Velocity6.v
theories/Pf_Wrap.v
theories/Pf_Wrap2.v
theories/Pf_Xml1.v
theories/Pf_Xml2.v
theories/Pf_Xml3.v
theories/Pf_Xml4.v
theories/Pf_Xml5.v
theories/Pf_Xml6.v
theories/Pf_Xml7.v
theories/Pf_Xml8.v
theories/Pose.v
theories/Print.v
theories/Py.v
theories/PyRef.v
theories/RealArith.v
theories/Rep.v
theories/Show.v
theories/Spec_Appear.v
theories/Spec_Body.v
theories/Spec_Column.v
theories/Spec_Data.v
theories/Spec_Deriv.v
theories/Spec_Export.v
theories/Spec_Float.v
theories/Spec_Graph.v
theories/Spec_Heap.v
theories/Spec_Hist.v
theories/Spec_Ieee.v
theories/Spec_Jac.v
theories/Spec_Load.v
theories/Spec_Loose.v
theories/Spec_Mass.v
theories/Spec_Print.v
theories/Spec_Py.v
theories/Spec_PyRef.v
theories/Spec_Reach.v
theories/Spec_Relative.v
theories/Spec_Robot.v
theories/Spec_Rot.v
theories/Spec_Saved.v
theories/Spec_Str.v
theories/Spec_Turn.v
theories/Spec_Urdf.v
theories/Spec_Velocity.v
theories/Spec_Xml.v
theories/Thm_Alike.v
theories/Thm_Appear.v
theories/Thm_BaseCols.v
theories/Thm_BaseTurn.v
theories/Thm_Batch.v
theories/Thm_Column.v
theories/Thm_Conc.v
theories/Thm_Data.v
theories/Thm_Deriv.v
theories/Thm_Export.v
theories/Thm_Fk.v
theories/Thm_Float.v
theories/Thm_FloatDist.v
theories/Thm_FloatJac.v
theories/Thm_FloatMass.v
theories/Thm_Grad.v
theories/Thm_Heap.v
theories/Thm_Ids.v
theories/Thm_Ids2.v
theories/Thm_Ieee.v
theories/Thm_IeeeDist.v
theories/Thm_IeeeJac.v
theories/Thm_IeeeMass.v
theories/Thm_Import.v
theories/Thm_Jac.v
theories/Thm_Load.v
theories/Thm_Loose.v
theories/Thm_Mass.v
theories/Thm_Mimic.v
theories/Thm_Pair.v
theories/Thm_Partial.v
theories/Thm_Partial2.v
theories/Thm_Pickle.v
theories/Thm_Pose.v
theories/Thm_Print.v
theories/Thm_Py.v
theories/Thm_PyQuery.v
theories/Thm_PyRef.v
theories/Thm_Reach.v
theories/Thm_Read.v
theories/Thm_Real.v
theories/Thm_Recall.v
theories/Thm_Recall2.v
theories/Thm_Relative.v
theories/Thm_Rigid.v
theories/Thm_Saved.v
theories/Thm_Turn.v
theories/Thm_Velocity.v
theories/Thm_Xml.v
theories/TinyXml.v
theories/Urdf.v
theories/Wrapper.v
