-Q theories Verif
theories/Scalar.v
theories/Cset_model.v
theories/Cset_spec.v
theories/Cset_proofs.v
theories/Cset_props.v
theories/Armijo_model.v
theories/Armijo_spec.v
theories/Armijo_proofs.v
theories/Armijo_props.v
theories/ArmijoS_proofs.v
theories/ArmijoS_props.v
theories/Problem_model.v
theories/Problem_spec.v
theories/Problem_proofs.v
theories/Problem_props.v
theories/Solver_model.v
theories/Solver_spec.v
theories/Solver_proofs.v
theories/Merit_spec.v
theories/SolverR_proofs.v
theories/Merit_proofs.v
theories/SolverT_proofs.v
theories/SolverS_proofs.v
theories/SolverC_proofs.v
theories/Solver_examples.v
theories/SolverX_proofs.v
theories/Solver_props.v
theories/MeritX_proofs.v
theories/Merit_props.v
theories/Manifold_model.v
theories/Manifold_spec.v
theories/Manifold_proofs.v
theories/ManifoldR_proofs.v
theories/ManifoldX_proofs.v
theories/Manifold_props.v
theories/Function_model.v
theories/Function_spec.v
theories/Function_proofs.v
theories/FunctionE_proofs.v
theories/FunctionJ_proofs.v
theories/FunctionH_proofs.v
theories/FunctionQ_proofs.v
theories/FunctionB_proofs.v
theories/FunctionD_proofs.v
theories/FunctionX_proofs.v
theories/Function_props.v
theories/Bfgs_model.v
theories/Bfgs_spec.v
theories/Bfgs_proofs.v
theories/Bfgs_props.v
theories/Symb_model.v
theories/Lin_spec.v
theories/Lin_proofs.v
theories/Symb_spec.v
theories/Symb_proofs.v
theories/SymbL_proofs.v
theories/SymbC_proofs.v
theories/SymbP_proofs.v
theories/SymbQ_proofs.v
theories/Symb_props.v
theories/Ldlt_model.v
theories/Ldlt_spec.v
theories/Ldlt_proofs.v
theories/LdltG_proofs.v
theories/LdltB_proofs.v
theories/LdltS_proofs.v
theories/LdltO_proofs.v
theories/LdltQ_proofs.v
theories/LdltT_proofs.v
theories/LdltX_proofs.v
theories/LdltZ_proofs.v
theories/Ldlt_props.v
theories/Bk_model.v
theories/Bk_spec.v
theories/Bk_proofs.v
theories/BkP_proofs.v
theories/BkS_proofs.v
theories/BkV_proofs.v
theories/BkI_proofs.v
theories/Inertia_proofs.v
theories/BkG_proofs.v
theories/BkX_proofs.v
theories/Bk_props.v
theories/Poly_model.v
theories/Poly_spec.v
theories/Poly_proofs.v
theories/Poly_props.v
theories/Own_model.v
theories/Own_spec.v
theories/Own_proofs.v
theories/Own_props.v
theories/Hist_model.v
theories/Hist_proofs.v
theories/Hist_props.v
theories/Det_spec.v
theories/Det_proofs.v
theories/DetS_proofs.v
theories/Det_props.v
theories/Descent_spec.v
theories/Descent_proofs.v
theories/Refine_proofs.v
theories/DescentX_proofs.v
theories/Descent_props.v
theories/Ctor_spec.v
theories/NeutralX_proofs.v
theories/CtorH_proofs.v
theories/Ctor_props.v
theories/Qp_spec.v
theories/Qp_proofs.v
theories/QpD_proofs.v
theories/QpT_proofs.v
theories/QpC_proofs.v
theories/QpF_proofs.v
theories/QpX_proofs.v
theories/Qp_props.v
theories/Objects_model.v
theories/Objects_spec.v
theories/Objects_proofs.v
theories/ObjectsX_proofs.v
theories/Prox_proofs.v
theories/Objects_props.v
theories/Client_model.v
theories/Client_spec.v
theories/Client_proofs.v
theories/ClientX_proofs.v
theories/Client_props.v
theories/Fac_model.v
theories/Fac_spec.v
theories/Fac_proofs.v
theories/FacX_proofs.v
theories/Fac_props.v
theories/QpN_proofs.v
theories/QpNX_proofs.v
theories/QpN_props.v
theories/FacZ_proofs.v
theories/FacZ_props.v
theories/PsLdlt_model.v
theories/PsLdlt_spec.v
theories/PsLdlt_proofs.v
theories/PsLdlt_props.v
theories/QpR_spec.v
theories/QpR_proofs.v
theories/QpRC_proofs.v
theories/QpRF_proofs.v
theories/QpRO_proofs.v
theories/QpRX_proofs.v
theories/QpR_props.v
theories/Settings_spec.v
theories/Settings_proofs.v
theories/Settings_props.v
theories/Act_spec.v
theories/Act_proofs.v
theories/ActD_proofs.v
theories/ActT_proofs.v
theories/ActF_proofs.v
theories/ActX_proofs.v
theories/Act_props.v
theories/Log_model.v
theories/Log_spec.v
theories/Log_proofs.v
theories/LogX_proofs.v
theories/Log_props.v
theories/Math_model.v
theories/Math_spec.v
theories/Math_proofs.v
theories/Math_props.v
theories/Glob_spec.v
theories/Glob_proofs.v
theories/GlobD_proofs.v
theories/GlobT_proofs.v
theories/GlobF_proofs.v
theories/GlobX_proofs.v
theories/Glob_props.v
theories/Cert_spec.v
theories/Cert_proofs.v
theories/Cert_props.v
theories/Pdc_spec.v
theories/Pdc_proofs.v
theories/PdcO_proofs.v
theories/PdcX_proofs.v
theories/Pdc_props.v
theories/Dbl_spec.v
theories/Dbl_proofs.v
theories/Dbl_props.v
theories/Stall_spec.v
theories/Stall_proofs.v
theories/Cold_proofs.v
theories/Stall_props.v
theories/Disk_spec.v
theories/Disk_proofs.v
theories/DiskS_proofs.v
theories/Disk_props.v
theories/Cold64_proofs.v
theories/Stall64_props.v
