(** C37: the Cox partial likelihood. *)
From Coq Require Import Reals List Lra Lia Arith Bool.
From Verif Require Import M_affine M_buffer Vec Spec M_quad M_loss SpecLoss SpecConvex M_cox SpecCox SpecCoxObj P_loss4 P_loss5 P_cox P_cox2 P_cox3 P_cox4 P_cox5.
Import ListNotations.
Local Open Scope R_scope.

(** ** The compiled functions, for data with any ties, in any order argsort may choose, whatever the scratch arrays hold *)
Theorem C37_value : forall T cens ord w b eta, sorts T ord -> cox_shapes T cens w eta -> nonneg w -> covered T w -> sized (length T) b ->
  cox_objective (mk_cdata T cens ord (rank_min T) (rank_max T)) b eta w = Ok (cox_loss T cens w eta).
Proof. intros T cens ord w b eta So (Lc & Lw & Le) Nw C B. exact (objective_ok T cens ord w So Lc Lw Nw b eta C B Le). Qed.
Print Assumptions C37_value.
Theorem C37_gradient : forall T cens ord w b g eta, sorts T ord -> cox_shapes T cens w eta -> nonneg w -> covered T w -> sized (length T) b -> length g = length T ->
  exists g', cox_gradient (mk_cdata T cens ord (rank_min T) (rank_max T)) b g eta w = Ok g' /\ is_gradient (length T) (cox_loss T cens w) eta g'.
Proof. intros T cens ord w b g eta So (Lc & Lw & Le) Nw C B Lg. exact (gradient_ok T cens ord w So Lc Lw Nw b g eta C B Lg Le). Qed.
Print Assumptions C37_gradient.
(** the products are those of the derivative of the gradient *)
Theorem C37_hessian : forall T cens ord w b h eta G, sorts T ord -> cox_shapes T cens w eta -> nonneg w -> covered T w -> sized (length T) b -> length h = length T -> gradient_of (length T) (cox_loss T cens w) G ->
  exists H, is_jacobian (length T) G eta H /\ forall z, length z = length T -> cox_hessian (mk_cdata T cens ord (rank_min T) (rank_max T)) b h eta z w = Ok (H z) /\ length (H z) = length T.
Proof. intros T cens ord w b h eta G So (Lc & Lw & Le) Nw C B Lh HG. exact (hessian_ok T cens ord w So Lc Lw Nw b h eta G C B Lh Le HG). Qed.
Print Assumptions C37_hessian.
Theorem C37_convex : forall T cens w, length cens = length T -> length w = length T -> nonneg w -> covered T w -> convex_on (length T) (cox_loss T cens w).
Proof. exact cox_convex. Qed.
Print Assumptions C37_convex.
(** symmetric, and positive semidefinite *)
Theorem C37_hessian_form : forall T cens ord w b h eta x z Hx Hz, sorts T ord -> cox_shapes T cens w eta -> nonneg w -> covered T w -> sized (length T) b -> length h = length T -> length x = length T -> length z = length T ->
  cox_hessian (mk_cdata T cens ord (rank_min T) (rank_max T)) b h eta x w = Ok Hx -> cox_hessian (mk_cdata T cens ord (rank_min T) (rank_max T)) b h eta z w = Ok Hz -> dot x Hz = dot z Hx /\ 0 <= dot x Hx.
Proof. intros T cens ord w b h eta x z Hx Hz So (Lc & Lw & Le) Nw C B Lh Lx Lz. exact (hessian_form T cens ord w So Lc Lw Nw b h eta x z Hx Hz C B Lh Le Lx Lz). Qed.
Print Assumptions C37_hessian_form.
(** nan exactly when at some time nobody of positive weight is at risk *)
Theorem C37_nan : forall T cens ord w b g eta, sorts T ord -> cox_shapes T cens w eta -> nonneg w -> sized (length T) b -> length g = length T -> let D := mk_cdata T cens ord (rank_min T) (rank_max T) in
  (covered T w <-> cox_objective D b eta w <> Err NaNResult) /\ (covered T w <-> cox_gradient D b g eta w <> Err NaNResult).
Proof. intros T cens ord w b g eta So (Lc & Lw & Le) Nw B Lg. exact (nan_iff T cens ord w So Lc Lw Nw b g eta B Lg Le). Qed.
Print Assumptions C37_nan.
(** ** Objects: after any calls, with or without weights of the caller, a call returns the documented value and gradient at its argument *)
Theorem C37_object : forall h argsort T cens c off q w0 h0 k, sorting argsort -> new_cox h argsort T cens c off q w0 = (h0, Ok k) ->
  length cens = length T -> length (cox_weights T w0) = length T -> off_fits (length T) off -> covered T (cox_weights T w0) ->
  forall os b x, Forall (fair (length T) [k_cw k; k_G k]) os -> sized (length T) b -> length x = length T ->
  let f := fun z => c * cox_loss T cens (cox_weights T w0) (minus z off) in let h1 := calls k h0 os in
  (exists h2, cox_eval h1 k b None x EvFunc = (h2, Ok (KFunc (f x)))) /\
  (exists h2 r, cox_eval h1 k b None x EvGrad = (h2, Ok (KGrad r)) /\ is_gradient (length T) f x (read h2 r)) /\
  (exists h2 r, cox_eval h1 k b None x EvBoth = (h2, Ok (KBoth (f x) r)) /\ is_gradient (length T) f x (read h2 r)).
Proof. exact eval_after. Qed.
Print Assumptions C37_object.
(** ... and hessian_mult the Hessian of the function with coef 1, at the argument less the offset *)
Theorem C37_hessian_mult_partial : forall h argsort T cens c off q w0 h0 k, sorting argsort -> new_cox h argsort T cens c off q w0 = (h0, Ok k) ->
  length cens = length T -> length (cox_weights T w0) = length T -> off_fits (length T) off -> covered T (cox_weights T w0) ->
  forall os b x z, Forall (fair (length T) [k_cw k; k_G k]) os -> sized (length T) b -> length x = length T -> length z = length T -> forall G, gradient_of (length T) (cox_loss T cens (cox_weights T w0)) G ->
  exists h2 H, is_jacobian (length T) G (minus x off) H /\ cox_hess (calls k h0 os) k b None x z = (h2, Ok (H z)).
Proof. exact hess_after. Qed.
Print Assumptions C37_hessian_mult_partial.
(** ** Where it fails. hessian_mult forgets coef *)
Theorem C37_coef_refuted : forall argsort, sorting argsort -> exists T cens h k x z h1 v, new_cox [] argsort T cens 2 None None None = (h, Ok k) /\ length x = length T /\ length z = length T /\
  cox_hess h k z2 None x z = (h1, Ok v) /\
  forall G H, gradient_of (length T) (fun y => 2 * cox_loss T cens (ones (length T)) y) G -> is_jacobian (length T) G x H -> v <> H z.
Proof. exact coef_witness. Qed.
Print Assumptions C37_coef_refuted.
(** a gradient in hand changes when the gradient at another point is computed *)
Theorem C37_alias_refuted : forall argsort, sorting argsort -> exists T cens h k x y h1 h2 r, new_cox [] argsort T cens 1 None None None = (h, Ok k) /\ length x = length T /\ length y = length T /\
  cox_eval h k z2 None x EvGrad = (h1, Ok (KGrad r)) /\ is_gradient (length T) (cox_loss T cens (ones (length T))) x (read h1 r) /\
  fst (cox_eval h1 k z2 None y EvGrad) = h2 /\ ~ is_gradient (length T) (cox_loss T cens (ones (length T))) x (read h2 r).
Proof. exact alias_witness. Qed.
Print Assumptions C37_alias_refuted.
(** a subsample without the cases of the latest time: nan everywhere *)
Theorem C37_subsample_refuted : forall h argsort T cens c off q w0 h0 k idx h1 k1 i b x, sorting argsort -> new_cox h argsort T cens c off q w0 = (h0, Ok k) ->
  length cens = length T -> length (cox_weights T w0) = length T -> off_fits (length T) off -> subsample_cox h0 argsort k idx = (h1, Ok k1) ->
  (i < length T)%nat -> (forall j, In j idx -> nth j T 0 < nth i T 0) -> sized (length T) b -> length x = length T ->
  snd (cox_eval h1 k1 b None x EvFunc) = Err NaNResult /\ snd (cox_eval h1 k1 b None x EvGrad) = Err NaNResult /\ snd (cox_eval h1 k1 b None x EvBoth) = Err NaNResult.
Proof. exact subsample_nan. Qed.
Print Assumptions C37_subsample_refuted.
(** ** The hypotheses are met: a sort exists; three cases, two tied *)
Example C37_sorting : sorting insertion.
Proof. exact insertion_sorts. Qed.
Example C37_covered : covered [2; 1; 2] [1; 0; 3] /\ cox_shapes [2; 1; 2] [1; 1; 0]%nat [1; 0; 3] [0; 0; 0] /\ nonneg [1; 0; 3] /\ sized 3 (mk_scratch (zeros 3) (zeros 3) (zeros 3) (zeros 3) (zeros 3)).
Proof.
  split; [|split; [repeat split|split; [unfold nonneg; repeat constructor; lra|repeat split]]]. intros i Hi. cbn in Hi. exists 2%nat. cbn. split; [lia|]. destruct i as [|[|[|]]]; try lia; cbn; lra.
Qed.
Example C37_subsampled : exists h0 k h1 k1, new_cox [] insertion T2 c2 1 None None None = (h0, Ok k) /\ subsample_cox h0 insertion k [0%nat] = (h1, Ok k1) /\ (1 < length T2)%nat /\ (forall j, In j [0%nat] -> nth j T2 0 < nth 1 T2 0).
Proof.
  assert (N := two_new insertion 1 ltac:(lra)). do 4 eexists. split; [exact N|]. split.
  - unfold subsample_cox, copy_cox. cbn [two k_data cdata_of c_times c_cens k_coef k_offset k_quad k_cw]. unfold new_cox. destruct (Rlt_dec 1 0); [lra|].
    assert (A : any_neg (read [[1; 1]; [0; 0]] 0%nat) = false) by (apply any_neg_false; unfold nonneg, read; cbn; repeat constructor; lra). rewrite A. reflexivity.
  - split; [cbn; lia|]. intros j [<-|[]]. cbn. lra.
Qed.
