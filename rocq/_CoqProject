-Q theories Verif
theories/Vec.v
theories/Spec.v
theories/M_quad.v
theories/P_quad.v
theories/T_quad.v
theories/M_prox.v
theories/P_pl.v
theories/T_pl.v
theories/P_prox.v
theories/P_feas.v
theories/T_prox.v
theories/M_semi.v
theories/SpecAtom.v
theories/P_semi.v
theories/P_conj.v
theories/T_semi.v
theories/M_shift.v
theories/SpecBase.v
theories/P_shift.v
theories/SpecCone.v
theories/M_cones.v
theories/P_cones.v
theories/T_cones.v
theories/M_simplex.v
theories/SpecSimplex.v
theories/P_simplex.v
theories/T_simplex.v
theories/SpecIso.v
theories/M_iso.v
theories/P_iso.v
theories/T_iso.v
theories/SpecMode.v
theories/M_mode.v
theories/SpecModed.v
theories/P_gauge.v
theories/SpecSlope.v
theories/M_slope.v
theories/SpecSlopeAtom.v
theories/P_slope.v
theories/T_slope.v
theories/SpecWeighted.v
theories/M_weighted.v
theories/SpecWatom.v
theories/P_weighted.v
theories/T_weighted.v
theories/SpecPart.v
theories/P_part.v
theories/SpecGroup.v
theories/M_mixed.v
theories/M_group.v
theories/M_mixed_atom.v
theories/SpecGatom.v
theories/P_mixed.v
theories/P_kinds.v
theories/P_group.v
theories/P_group2.v
theories/T_group.v
theories/SpecConvex.v
theories/P_calc.v
theories/M_fista.v
theories/SpecFista.v
theories/P_fista.v
theories/P_fista2.v
theories/P_fista3.v
theories/P_fista4.v
theories/T_fista.v
theories/M_affine.v
theories/SpecAffine.v
theories/P_affine.v
theories/P_affine2.v
theories/M_buffer.v
theories/SpecBuffer.v
theories/P_buffer.v
theories/M_fused.v
theories/SpecFused.v
theories/P_fused.v
theories/M_afatom.v
theories/P_afatom.v
theories/T_affine.v
theories/M_loss.v
theories/SpecLoss.v
theories/P_sep.v
theories/P_loss.v
theories/P_loss2.v
theories/P_loss3.v
theories/P_loss4.v
theories/P_loss5.v
theories/M_smooth.v
theories/SpecSmooth.v
theories/P_smooth.v
theories/P_loss6.v
theories/T_loss.v
theories/T_smooth.v
theories/M_problem.v
theories/SpecProblem.v
theories/P_problem.v
theories/P_separable.v
theories/P_problem2.v
theories/T_problem.v
theories/M_sconj.v
theories/SpecSconj.v
theories/P_sconj.v
theories/T_sconj.v
theories/M_container.v
theories/SpecContainer.v
theories/P_dual.v
theories/P_container.v
theories/P_container2.v
theories/P_container3.v
theories/P_container4.v
theories/P_container5.v
theories/T_container.v
theories/SpecNewton.v
theories/M_newton.v
theories/SpecNewton2.v
theories/P_newton.v
theories/P_newton2.v
theories/P_newton3.v
theories/P_newton4.v
theories/T_newton.v
theories/M_admm.v
theories/SpecAdmm.v
theories/P_admm.v
theories/P_admm2.v
theories/P_admm3.v
theories/T_admm.v
theories/M_cv.v
theories/SpecCv.v
theories/P_cv.v
theories/T_cv.v
theories/M_path.v
theories/SpecPath.v
theories/P_path.v
theories/P_path2.v
theories/P_path3.v
theories/P_path4.v
theories/P_path5.v
theories/P_path6.v
theories/P_path7.v
theories/T_path.v
theories/M_cox.v
theories/SpecCox.v
theories/SpecCoxObj.v
theories/P_cox.v
theories/P_cox2.v
theories/P_cox3.v
theories/P_cox4.v
theories/P_cox5.v
theories/T_cox.v
theories/M_linear.v
theories/SpecLinear.v
theories/P_linear.v
theories/T_linear.v
theories/M_sgl.v
theories/SpecSgl.v
theories/SpecSglObj.v
theories/P_search.v
theories/P_sgl.v
theories/P_sgl2.v
theories/P_sgl3.v
theories/P_sgl4.v
theories/P_sgl5.v
theories/P_sgl6.v
theories/P_sgl7.v
theories/T_sgl.v
theories/SpecBlock.v
theories/M_block.v
theories/M_sgb.v
theories/SpecBatom.v
theories/P_block.v
theories/P_block2.v
theories/P_block3.v
theories/T_block.v
theories/SpecSgb.v
theories/P_sgb.v
theories/P_sgb2.v
theories/P_sgb3.v
theories/T_sgb.v
theories/P_compact.v
theories/SpecSvd.v
theories/P_svd1.v
theories/P_svd2.v
theories/P_svd3.v
theories/M_svd.v
theories/SpecSvd2.v
theories/P_svd4.v
theories/P_svd5.v
theories/P_svd6.v
theories/T_svd.v
theories/M_gpath.v
theories/SpecGpath.v
theories/P_gpath.v
theories/P_gpath2.v
theories/P_gpath3.v
theories/P_gpath4.v
theories/P_gpath5.v
theories/P_sgpath.v
theories/P_sgpath2.v
theories/P_sgpath3.v
theories/SpecSgpath.v
theories/P_sgpath4.v
theories/P_sgpath5.v
theories/P_sgpath6.v
theories/P_sgpath7.v
theories/T_gpath.v
theories/M_mglm.v
theories/SpecMglm.v
theories/P_mglm.v
theories/P_mglm2.v
theories/P_mglm3.v
theories/P_mglm4.v
theories/P_mglm5.v
theories/P_mglm6.v
theories/P_mglm7.v
theories/P_mglm8.v
theories/P_mglm9.v
theories/T_mglm.v
theories/M_multi.v
theories/SpecMulti.v
theories/P_multi.v
theories/P_multi2.v
theories/P_multi3.v
theories/P_multi4.v
theories/T_multi.v
theories/M_image.v
theories/SpecImage.v
theories/P_image.v
theories/P_image2.v
theories/P_image3.v
theories/T_image.v
theories/M_factored.v
theories/SpecFactored.v
theories/P_factored1.v
theories/P_factored2.v
theories/P_factored3.v
theories/P_factored4.v
theories/T_factored.v
theories/M_sklearn.v
theories/SpecSklearn.v
theories/P_sklearn1.v
theories/P_sklearn2.v
theories/P_sklearn3.v
theories/P_sklearn4.v
theories/P_sklearn5.v
theories/P_sklearn6.v
theories/P_sklearn7.v
theories/T_sklearn.v
theories/SpecNormal.v
theories/P_normal.v
theories/M_probit.v
theories/SpecProbit.v
theories/P_probit1.v
theories/P_probit2.v
theories/P_probit3.v
theories/T_probit.v
theories/M_mkkt.v
theories/SpecMkkt.v
theories/P_mkkt.v
theories/P_mkkt2.v
theories/T_mkkt.v
theories/M_mpath.v
theories/SpecMpath.v
theories/P_mpath.v
theories/P_mpath2.v
theories/P_mpath3.v
theories/P_mpath4.v
theories/T_mpath.v
theories/M_sbpath.v
theories/SpecSbpath.v
theories/P_sbpath.v
theories/P_sbpath2.v
theories/P_sbpath3.v
theories/P_sbpath4.v
theories/T_sbpath.v
theories/M_subprob.v
theories/SpecSubprob.v
theories/P_subprob.v
theories/P_subprob2.v
theories/P_warm.v
theories/P_warm2.v
theories/T_subprob.v
theories/M_nesta.v
theories/SpecNesta.v
theories/P_nesta.v
theories/P_nesta2.v
theories/P_nesta3.v
theories/P_tfocs.v
theories/P_tfocs2.v
theories/P_nesta4.v
theories/P_nesta5.v
theories/P_tfocs3.v
theories/P_nesta6.v
theories/P_nesta7.v
theories/T_nesta.v
theories/M_check.v
theories/SpecCheck.v
theories/P_check.v
theories/P_check2.v
theories/P_check3.v
theories/P_check4.v
theories/T_check.v
theories/M_hsvm.v
theories/SpecHsvm.v
theories/P_hsvm.v
theories/P_hsvm2.v
theories/P_hsvm3.v
theories/T_hsvm.v
theories/M_qconj.v
theories/SpecQconj.v
theories/P_qconj.v
theories/T_qconj.v
theories/M_factory.v
theories/SpecFactory.v
theories/P_factory.v
theories/P_factory2.v
theories/P_factory3.v
theories/T_factory.v
theories/M_equal.v
theories/M_compose.v
theories/P_equal.v
theories/P_equal2.v
theories/P_equal3.v
theories/P_compose.v
theories/SpecCompose.v
theories/P_compose2.v
theories/T_equal.v
theories/M_coefs.v
theories/SpecCoefs.v
theories/P_coefs.v
theories/T_coefs.v
theories/M_sknull.v
theories/P_sknull.v
theories/T_sknull.v
theories/M_crossval.v
theories/SpecCrossval.v
theories/P_crossval.v
theories/P_crossval2.v
theories/P_crossval3.v
theories/P_crossval4.v
theories/T_crossval.v
theories/M_dense.v
theories/SpecDense.v
theories/P_dense.v
theories/P_dense1.v
theories/P_dense2.v
theories/P_dense3.v
theories/T_dense.v
theories/SpecRestart.v
theories/P_restart.v
theories/T_restart.v
theories/T_extra.v
theories/M_sepconj.v
theories/SpecSepconj.v
theories/P_sepconj.v
theories/P_sepconj2.v
theories/P_moreau.v
theories/T_sepconj.v
theories/T_moreau.v
theories/T_epigraph.v
theories/T_extra2.v
theories/P_sizes.v
theories/T_sizes.v
theories/M_iqeq.v
theories/SpecIqeq.v
theories/P_iqeq.v
theories/T_iqeq.v
theories/P_growth.v
theories/T_growth.v
theories/P_factory4.v
theories/T_factory4.v
theories/M_tuning.v
theories/SpecTuning.v
theories/P_tuning.v
theories/T_tuning.v
theories/SpecDeviance.v
theories/P_deviance.v
theories/T_deviance.v
theories/P_gstrong.v
theories/T_gstrong.v
theories/P_multifac.v
theories/T_multifac.v
theories/P_onepart.v
theories/T_onepart.v
theories/P_iqzero.v
theories/T_iqzero.v
theories/T_tight.v
