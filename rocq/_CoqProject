-Q theories Verif
theories/BaseR.v
theories/M_Gas.v
theories/M_Flux.v
theories/S_Gas.v
theories/Pf_Flux.v
theories/Pf_FluxCons.v
theories/Pf_HLLC.v
theories/Pf_FluxRot.v
theories/M_BC.v
theories/Pf_FluxUp.v
theories/Pf_Slip.v
theories/Pf_FluxMisc.v
theories/P_Flux.v
theories/P_Flux2.v
theories/S_Deriv.v
theories/Pf_Deriv.v
theories/Pf_Gas.v
theories/P_Gas.v
theories/S_Deriv2.v
theories/Pf_FluxJac.v
theories/Pf_AusmJac.v
theories/Pf_RoeAvg.v
theories/Pf_HllcJac.v
theories/Pf_RoeJac.v
theories/P_FluxJac.v
theories/M_BCConf.v
theories/Pf_BC.v
theories/Pf_BCConf.v
theories/P_BC.v
theories/P_BCFile.v
theories/M_Visc.v
theories/S_Visc.v
theories/Pf_Visc.v
theories/P_Visc.v
theories/Base.v
theories/M_Mesh.v
theories/S_Mesh.v
theories/Pf_Esup.v
theories/Pf_Esuel.v
theories/Pf_Host.v
theories/Pf_Faces.v
theories/Pf_Topo.v
theories/P_Mesh.v
theories/BaseSum.v
theories/Pf_Incid.v
theories/M_Geom.v
theories/S_Geom.v
theories/Pf_Geom.v
theories/P_Geom.v
theories/Pf_Full.v
theories/M_MeshUtil.v
theories/Pf_Reorder.v
theories/Pf_Periodic.v
theories/Pf_Psup.v
theories/Pf_Lines.v
theories/P_MeshUtil.v
theories/M_Part.v
theories/Pf_Part.v
theories/Pf_Restrict.v
theories/Pf_Part2.v
theories/ChkMesh.v
theories/P_Part.v
theories/M_Async.v
theories/Pf_Async.v
theories/M_Trace.v
theories/Pf_Trace.v
theories/P_Trace.v
theories/M_Array.v
theories/Pf_Array.v
theories/P_Array.v
theories/M_Handler.v
theories/Pf_Handler.v
theories/P_Handler.v
theories/M_Gmsh.v
theories/Pf_Gmsh.v
theories/Pf_GmshW.v
theories/P_Gmsh.v
theories/M_Space.v
theories/S_Space.v
theories/Pf_Space.v
theories/M_Grad.v
theories/Pf_Grad.v
theories/M_Conc.v
theories/Pf_Conc.v
theories/P_Grad.v
theories/M_Recon.v
theories/S_Recon.v
theories/Pf_Recon.v
theories/P_Recon.v
theories/M_Resid.v
theories/S_Resid.v
theories/Pf_Resid.v
theories/Pf_Resid2.v
theories/P_Resid.v
theories/Pf_Jac.v
theories/P_Jac.v
theories/M_Linalg.v
theories/Pf_Linalg.v
theories/P_Linalg.v
theories/S_Par.v
theories/Pf_Par.v
theories/P_Par.v
theories/Pf_Par2.v
theories/P_Par2.v
theories/M_Ode.v
theories/S_Ode.v
theories/Pf_Ode.v
theories/Pf_Ode2.v
theories/P_Ode.v
theories/P_Ode2.v
theories/P_Ode3.v
theories/M_Diff.v
theories/S_Diff.v
theories/Pf_Diff.v
theories/P_Diff.v
theories/M_Out.v
theories/S_Out.v
theories/Pf_Out.v
theories/P_Out.v
theories/P_Out2.v
theories/M_SU2.v
theories/P_SU2.v
theories/M_Vtu.v
theories/P_Vtu.v
theories/M_BPoint.v
theories/P_BPoint.v
theories/M_Compare.v
theories/P_Compare.v
theories/M_Ctl.v
theories/P_Ctl.v
theories/M_Case.v
theories/P_Case.v
theories/M_Start.v
theories/M_Dist.v
theories/P_Start.v
theories/M_Prep.v
theories/Pf_Lines2.v
theories/P_Lines.v
theories/Pf_Prep.v
theories/P_Prep.v
theories/Pf_Renum.v
theories/P_Renum.v
theories/P_Renum2.v
theories/Pf_Dist.v
theories/P_Dist.v
theories/Pf_JacSwap.v
theories/Pf_JacPart.v
theories/P_JacPart.v
theories/M_Report.v
theories/Pf_Report.v
theories/P_Report.v
theories/M_DistImp.v
theories/Pf_DistImp.v
theories/P_DistImp.v
theories/Pf_RenumImp.v
theories/P_RenumImp.v
theories/M_Solver.v
theories/P_Solver.v
theories/P_Report2.v
theories/M_Ghost.v
theories/P_Ghost.v
theories/M_Conv.v
theories/P_Conv.v
theories/P_Shift.v
theories/P_Scale.v
theories/P_Turn.v
theories/P_Report3.v
