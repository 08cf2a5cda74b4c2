Vec
Spec
M_quad
P_quad
T_quad
M_prox
P_pl
T_pl
P_prox
P_feas
T_prox
M_semi
SpecAtom
P_semi
P_conj
T_semi
M_shift
SpecBase
P_shift
SpecCone
M_cones
P_cones
T_cones
M_simplex
SpecSimplex
P_simplex
T_simplex
SpecIso
M_iso
P_iso
T_iso
SpecMode
M_mode
SpecModed
P_gauge
SpecSlope
M_slope
SpecSlopeAtom
P_slope
T_slope
SpecWeighted
M_weighted
SpecWatom
P_weighted
T_weighted
SpecPart
P_part
SpecGroup
M_mixed
M_group
M_mixed_atom
SpecGatom
P_mixed
P_kinds
P_group
P_group2
T_group
SpecConvex
P_calc
M_fista
SpecFista
P_fista
P_fista2
P_fista3
P_fista4
T_fista
M_affine
SpecAffine
P_affine
P_affine2
M_buffer
SpecBuffer
P_buffer
M_fused
SpecFused
P_fused
M_afatom
P_afatom
T_affine
M_loss
SpecLoss
P_sep
P_loss
P_loss2
P_loss3
P_loss4
P_loss5
M_smooth
SpecSmooth
P_smooth
P_loss6
T_loss
T_smooth
M_problem
SpecProblem
P_problem
P_separable
P_problem2
T_problem
M_sconj
SpecSconj
P_sconj
T_sconj
M_container
SpecContainer
P_dual
P_container
P_container2
P_container3
P_container4
P_container5
T_container
SpecNewton
M_newton
SpecNewton2
P_newton
P_newton2
P_newton3
P_newton4
T_newton
M_admm
SpecAdmm
P_admm
P_admm2
P_admm3
T_admm
M_cv
SpecCv
P_cv
T_cv
M_path
SpecPath
P_path
P_path2
P_path3
P_path4
P_path5
P_path6
P_path7
T_path
M_cox
SpecCox
SpecCoxObj
P_cox
P_cox2
P_cox3
P_cox4
P_cox5
T_cox
M_linear
SpecLinear
P_linear
T_linear
M_sgl
SpecSgl
SpecSglObj
P_search
P_sgl
P_sgl2
P_sgl3
P_sgl4
P_sgl5
P_sgl6
P_sgl7
T_sgl
SpecBlock
M_block
M_sgb
SpecBatom
P_block
P_block2
P_block3
T_block
SpecSgb
P_sgb
P_sgb2
P_sgb3
T_sgb
P_compact
SpecSvd
P_svd1
P_svd2
P_svd3
M_svd
SpecSvd2
P_svd4
P_svd5
P_svd6
T_svd
M_gpath
SpecGpath
P_gpath
P_gpath2
P_gpath3
P_gpath4
P_gpath5
P_sgpath
P_sgpath2
P_sgpath3
SpecSgpath
P_sgpath4
P_sgpath5
P_sgpath6
P_sgpath7
T_gpath
M_mglm
SpecMglm
P_mglm
P_mglm2
P_mglm3
P_mglm4
P_mglm5
P_mglm6
P_mglm7
P_mglm8
P_mglm9
T_mglm
M_multi
SpecMulti
P_multi
P_multi2
P_multi3
P_multi4
T_multi
M_image
SpecImage
P_image
P_image2
P_image3
T_image
M_factored
SpecFactored
P_factored1
P_factored2
P_factored3
P_factored4
T_factored
M_sklearn
SpecSklearn
P_sklearn1
P_sklearn2
P_sklearn3
P_sklearn4
P_sklearn5
P_sklearn6
P_sklearn7
T_sklearn
SpecNormal
P_normal
M_probit
SpecProbit
P_probit1
P_probit2
P_probit3
T_probit
M_mkkt
SpecMkkt
P_mkkt
P_mkkt2
T_mkkt
M_mpath
SpecMpath
P_mpath
P_mpath2
P_mpath3
P_mpath4
T_mpath
M_sbpath
SpecSbpath
P_sbpath
P_sbpath2
P_sbpath3
P_sbpath4
T_sbpath
M_subprob
SpecSubprob
P_subprob
P_subprob2
P_warm
P_warm2
T_subprob
M_nesta
SpecNesta
P_nesta
P_nesta2
P_nesta3
P_tfocs
P_tfocs2
P_nesta4
P_nesta5
P_tfocs3
P_nesta6
P_nesta7
T_nesta
M_check
SpecCheck
P_check
P_check2
P_check3
P_check4
T_check
M_hsvm
SpecHsvm
P_hsvm
P_hsvm2
P_hsvm3
T_hsvm
M_qconj
SpecQconj
P_qconj
T_qconj
M_factory
SpecFactory
P_factory
P_factory2
P_factory3
T_factory
M_equal
M_compose
P_equal
P_equal2
P_equal3
P_compose
SpecCompose
P_compose2
T_equal
M_coefs
SpecCoefs
P_coefs
T_coefs
M_sknull
P_sknull
T_sknull
M_crossval
SpecCrossval
P_crossval
P_crossval2
P_crossval3
P_crossval4
T_crossval
M_dense
SpecDense
P_dense
P_dense1
P_dense2
P_dense3
T_dense
SpecRestart
P_restart
T_restart
T_extra
M_sepconj
SpecSepconj
P_sepconj
P_sepconj2
P_moreau
T_sepconj
T_moreau
T_epigraph
T_extra2
P_sizes
T_sizes
M_iqeq
SpecIqeq
P_iqeq
T_iqeq
P_growth
T_growth
P_factory4
T_factory4
M_tuning
SpecTuning
P_tuning
T_tuning
SpecDeviance
P_deviance
T_deviance
P_gstrong
T_gstrong
P_multifac
T_multifac
P_onepart
T_onepart
P_iqzero
T_iqzero
T_tight
