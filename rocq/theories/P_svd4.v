(** Nuclear and operator norm objects: proofs. *)
From Coq Require Import Reals List Lra Lia Psatz Arith Bool.
From Verif Require Import M_affine P_affine P_affine2 Vec Spec SpecLoss M_quad M_prox M_semi M_shift SpecAtom SpecBase SpecMode M_mode SpecModed SpecPart SpecBlock M_cones SpecCone P_quad P_calc P_sep P_cv P_prox P_feas P_semi P_shift P_conj P_cones P_gauge P_part P_mixed M_linear SpecLinear P_linear SpecSvd P_svd1 P_svd2 P_svd3 M_svd SpecSvd2.
From Verif Require P_block P_block3.
Import ListNotations.
Local Open Scope R_scope.

(** ** np.dot(U, d[:,None] * V) *)
Lemma vadd_app : forall a b a' b' : vec, length a = length b -> vadd (a ++ a') (b ++ b') = vadd a b ++ vadd a' b'.
Proof. intros. apply P_cones.vzip_app. auto. Qed.
Lemma concat_vadd : forall {A} (f g : A -> vec) l, (forall i, In i l -> length (f i) = length (g i)) -> concat (map (fun i => vadd (f i) (g i)) l) = vadd (concat (map f l)) (concat (map g l)).
Proof. intros A f g. induction l as [|i l IH]; intros H; [reflexivity|]. cbn [map concat]. rewrite IH by (intros; apply H; right; auto). symmetry. apply vadd_app. apply H. left. auto. Qed.
Lemma concat_zeros : forall {A} c (l : list A), concat (map (fun _ => zeros c) l) = zeros (length l * c).
Proof. intros A c. induction l as [|i l IH]; [reflexivity|]. cbn [map concat length Nat.mul]. rewrite IH. unfold zeros. rewrite repeat_app. auto. Qed.
Lemma concat_scal : forall t (l : list vec), vscal t (concat l) = concat (map (vscal t) l).
Proof. intros t. induction l as [|a l IH]; [reflexivity|]. cbn [map concat]. rewrite <- IH. unfold vscal. apply map_app. Qed.
Lemma map_seq_nth : forall {B} (g : R -> B) (u : vec), map (fun i => g (nth i u 0)) (seq 0 (length u)) = map g u.
Proof. intros B g. induction u as [|a u IH]; [reflexivity|]. cbn [length seq map nth]. f_equal. rewrite <- seq_shift, map_map. exact IH. Qed.
Lemma scale_lengths : forall c d V, Forall (fun v => length v = c) V -> Forall (fun v => length v = c) (scale_each d V).
Proof. intros c. induction d as [|a d IH]; intros [|v V] F; cbn; constructor; inversion F; subst; auto. apply vscal_length. Qed.
Theorem recompose_usv : forall r c U d V, length U = length V -> length d = length V -> Forall (fun u => length u = r) U -> Forall (fun v => length v = c) V -> recompose r c U d V = usv (r * c) U d V.
Proof.
  intros r c U d V Luv Ld FU FV. unfold recompose, usv. revert U d Luv Ld FU. induction FV as [|v V Lv FV IH]; intros [|u U] [|a d] Luv Ld FU; try discriminate.
  - cbn [map scale_each rank1s mat_tvec]. rewrite concat_zeros, seq_length. auto.
  - inversion FU; subst. cbn [map scale_each rank1s mat_tvec]. rewrite <- IH by (auto; cbn in *; lia).
    rewrite concat_vadd. 2:{ intros i _. rewrite !vscal_length. symmetry. apply mat_tvec_length. apply scale_lengths; auto. }
    f_equal. unfold rank1. rewrite concat_scal, map_map. rewrite (map_seq_nth (fun b => vscal b (vscal a v))). f_equal. apply map_ext. intros b. rewrite !vscal_vscal. f_equal. ring.
Qed.
Lemma kept_usv : forall n U d V, length U = length V -> length d = length V -> Forall (fun a => 0 <= a) d -> Forall (fun x => length x = n) (rank1s U V) ->
  usv n (kept (positive d) U) (kept (positive d) d) (kept (positive d) V) = usv n U d V.
Proof.
  intros n U d V. unfold usv. revert U d. induction V as [|v V IH]; intros [|u U] [|a d] Luv Ld P F; try discriminate; auto.
  inversion P; inversion F; subst. cbn [positive map kept rank1s]. fold (positive d). assert (E := IH U d ltac:(cbn in *; lia) ltac:(cbn in *; lia) ltac:(auto) ltac:(auto)).
  destruct (Rlt_dec 0 a); cbn [rank1s mat_tvec].
  - rewrite E. auto.
  - rewrite E. replace a with 0 by lra. rewrite vscal_0. rewrite vadd_zeros_l; auto. rewrite mat_tvec_length by auto. auto.
Qed.
Lemma kept_length : forall {A B} m (l : list A) (k : list B), length l = length k -> length (kept m l) = length (kept m k).
Proof. intros A B. induction m as [|b m IH]; intros [|x l] [|y k] L; try discriminate; auto. cbn. destruct b; cbn; auto. Qed.
Lemma kept_Forall : forall {A} (P : A -> Prop) m l, Forall P l -> Forall P (kept m l).
Proof. intros A P. induction m as [|b m IH]; intros [|x l] F; cbn; auto. inversion F; subst. destruct b; auto. Qed.

Section Svd.
Variables (r c : nat) (svd : svd_fun).
Hypothesis Hr : (1 <= r)%nat.
Hypothesis Hc : (1 <= c)%nat.
Local Notation n := (r * c)%nat (only parsing).
Local Notation k := (Nat.min r c) (only parsing).
Section One.
Variables (X : vec) (U V : list vec) (D : vec).
Hypothesis LX : length X = n.
Hypothesis Es : svd X = (U, D, V).
Hypothesis Sv : is_svd r c X U D V.
Lemma sU : length U = k. Proof. apply Sv. Qed.
Lemma sV : length V = k. Proof. apply Sv. Qed.
Lemma sD : length D = k. Proof. apply Sv. Qed.
Lemma sUV : length U = length V. Proof. rewrite sU, sV. auto. Qed.
Lemma sB : orthonormal n (rank1s U V). Proof. apply rank1s_orth; [apply sUV|apply Sv|apply Sv]. Qed.
Lemma sBk : length (rank1s U V) = k. Proof. rewrite rank1s_length; [apply sU|apply sUV]. Qed.
Lemma FU : Forall (fun u => length u = r) U. Proof. apply rows_length. apply Sv. Qed.
Lemma FV : Forall (fun u => length u = c) V. Proof. apply rows_length. apply Sv. Qed.
Lemma sX : X = mat_tvec n (rank1s U V) D. Proof. apply Sv. Qed.
Lemma rec : forall d, length d = k -> recompose r c U d V = mat_tvec n (rank1s U V) d.
Proof. intros d Ld. rewrite recompose_usv; [reflexivity|apply sUV|exact (eq_trans Ld (eq_sym sV))|apply FU|apply FV]. Qed.
Lemma k1 : (1 <= k)%nat. Proof. lia. Qed.
Definition vclass (q : sclass) : snclass := match q with SNuclear => CL1 | SOperator => CSup end.
Lemma val_syn : forall q d, length d = k -> snfun q r c (mat_tvec n (rank1s U V) d) = doc_seminorm (vclass q) d.
Proof.
  intros q d Ld. unfold snfun. destruct q; cbn [matrix_norm vclass doc_seminorm]; f_equal.
  - apply (nuc_usv r c U V); [apply sUV|apply Sv|apply Sv|exact (eq_trans Ld (eq_sym sU))].
  - apply (op_usv r c U V); [apply sUV|apply Sv|apply Sv|exact (eq_trans Ld (eq_sym sU))].
Qed.
Lemma val_ana : forall q Y, length Y = n -> ext_le (doc_seminorm (vclass q) (mat_vec (rank1s U V) Y)) (snfun q r c Y).
Proof.
  intros q Y LY. unfold snfun. destruct q; cbn [matrix_norm vclass doc_seminorm ext_le].
  - apply (coefs_nuc r c U V); [apply sUV|apply Sv|apply Sv|auto].
  - apply ellinf_le; [apply op_nonneg; auto|]. apply (coefs_op r c U V); [apply sUV|apply Sv|apply Sv|auto].
Qed.
Lemma val_X : forall q, snfun q r c X = doc_seminorm (vclass q) D.
Proof. intros q. rewrite sX at 1. apply val_syn. apply sD. Qed.
Theorem sn_lagrange_ok : forall q L lam, 0 < L -> 0 <= lam ->
  exists e, sn_lagrange_prox q r c svd X L lam = Ok e /\ is_unique_argmin n (prox_objective L X (gmode (snfun q r c) (Lagrange lam))) e.
Proof.
  intros q L lam HL Hl. unfold sn_lagrange_prox. rewrite Es. destruct (lagrange_prox_correct (vclass q) k D L lam k1 sD HL Hl) as (p & Ep & Hp). assert (Lp : length p = k) by apply Hp.
  exists (recompose r c U p V). split.
  - destruct q; cbn [vclass] in Ep; unfold aux_atom; (destruct (Rlt_dec lam 0); [lra|]); rewrite Ep; auto.
  - rewrite rec by auto. rewrite sX. rewrite <- sBk in Hp. refine (transfer_prox n (rank1s U V) sB _ _ L D p HL _ _ _ Hp).
    + rewrite sBk. apply sD.
    + intros a La. rewrite sBk in La. cbn [gmode]. rewrite val_syn; auto.
    + intros Y LY. cbn [gmode]. pose proof (val_ana q Y LY) as H. destruct (doc_seminorm (vclass q) (mat_vec (rank1s U V) Y)) eqn:E1; cbn [snfun ext_scale ext_le] in *; [|tauto]. apply Rmult_le_compat_l; auto.
Qed.
Lemma l1_bound_nonneg : forall b p, bound_prox CL1 D b = Ok p -> 0 <= b -> Forall (fun a => 0 <= a) p.
Proof.
  intros b p E Hb. cbn [bound_prox] in E. unfold l1_project in E. destruct (find_solution_piecewise_linear_c b 0 (vabs D)) as [cut|]; [|discriminate]. cbn [rbind] in E. apply Ok_inj in E. subst p.
  unfold l1_cutoff. apply Forall_forall. intros a I. apply in_map_iff in I. destruct I as (x & <- & Ix). pose proof (proj1 (Forall_forall _ _) (sv_pos _ _ _ _ _ _ Sv) x Ix) as Px. cbn in Px.
  unfold sgn. destruct (Rlt_dec cut (Rabs x)); [|lra]. destruct (Rlt_dec 0 x); [nra|]. destruct (Rlt_dec x 0); [lra|lra].
Qed.
Theorem sn_bound_ok : forall q b, 0 <= b -> exists e, sn_bound_prox q r c svd X b = Ok e /\ is_proj n (gball (snfun q r c) b) X e.
Proof.
  intros q b Hb. unfold sn_bound_prox. rewrite Es. destruct (bound_prox_correct (vclass q) k D b k1 sD Hb) as (p & Ep & Hp). assert (Lp : length p = k) by apply Hp.
  exists (recompose r c U p V). split.
  - destruct q; cbn [vclass] in Ep; unfold aux_atom; (destruct (Rlt_dec b 0); [lra|]); rewrite Ep; auto. cbn [rmap]. f_equal.
    rewrite recompose_usv; [|apply kept_length, sUV|apply kept_length; exact (eq_trans Lp (eq_sym sV))|apply kept_Forall, FU|apply kept_Forall, FV].
    rewrite kept_usv; [|apply sUV|exact (eq_trans Lp (eq_sym sV))|apply (l1_bound_nonneg b p Ep Hb)|apply rows_length, sB]. symmetry. apply rec; auto.
  - rewrite rec by auto. rewrite sX. rewrite <- sBk in Hp. refine (transfer_proj n (rank1s U V) sB _ _ D p _ _ _ Hp).
    + rewrite sBk. apply sD.
    + intros a La H. rewrite sBk in La. unfold gball. rewrite val_syn; auto.
    + intros Y LY H. unfold in_ball. pose proof (val_ana q Y LY) as G. unfold gball in H. destruct (doc_seminorm (vclass q) (mat_vec (rank1s U V) Y)); cbn [snfun ext_le] in *; [|tauto]. lra.
Qed.
Lemma D_ne : D <> []. Proof. pose proof sD as H. pose proof k1. intros E. rewrite E in H. cbn in H. lia. Qed.
Lemma D_abs : vabs D = D.
Proof. unfold vabs. rewrite <- (map_id D) at 2. apply map_ext_in. intros a I. apply Rabs_pos_eq. apply (proj1 (Forall_forall _ _) (sv_pos _ _ _ _ _ _ Sv) a I). Qed.
Lemma D_max : np_max D = Ok (ellinf D). Proof. rewrite <- D_abs at 1. apply P_cones.np_max_abs, D_ne. Qed.
Theorem sn_value : forall q lam chk, sn_seminorm q svd X lam chk = Ok (ext_scale lam (snfun q r c X)).
Proof. intros q lam chk. unfold sn_seminorm. rewrite Es, val_X. destruct q; auto. rewrite D_max. auto. Qed.
Theorem sn_test : forall q b, sn_constraint q svd X b = Ok (ok_or_inf (rleb (matrix_norm q r c X) (b * (1 + tol)))).
Proof.
  intros q b. unfold sn_constraint. rewrite Es. pose proof (val_X q) as E. destruct q; cbn [snfun vclass doc_seminorm matrix_norm] in *; injection E as E; rewrite E; [auto|]. rewrite D_max. auto.
Qed.
End One.

Hypothesis OK : svd_ok r c svd.
Lemma svd_at : forall X, length X = n -> exists U D V, svd X = (U, D, V) /\ is_svd r c X U D V.
Proof. intros X L. specialize (OK X L). destruct (svd X) as [[U D] V]. exists U, D, V. auto. Qed.
Theorem sn_prox_ok : forall q X L m, length X = n -> 0 < L -> mode_ok m -> match m with
     | Lagrange lam => exists e, sn_lagrange_prox q r c svd X L lam = Ok e /\ is_unique_argmin n (prox_objective L X (gmode (snfun q r c) (Lagrange lam))) e
     | Bound b => exists e, sn_bound_prox q r c svd X b = Ok e /\ is_proj n (gball (snfun q r c) b) X e end.
Proof. intros q X L m LX HL Hm. destruct (svd_at X LX) as (U & D & V & Es & Sv). destruct m as [lam|b]; [eapply sn_lagrange_ok|eapply sn_bound_ok]; eauto. Qed.
End Svd.

Theorem satom_proximal_ok : forall n a m p svd, satom_wf n a m -> (1 <= sa_r a)%nat -> (1 <= sa_c a)%nat -> svd_ok (sa_r a) (sa_c a) svd -> q_shape n p -> 0 < coef (b_quadratic (m_base (sa_moded a))) + coef p -> some_array (m_base (sa_moded a)) p ->
  exists v, satom_proximal svd a (AQuad p) = Ok v /\ prox_spec n (gmode (snfun (sa_k a) (sa_r a) (sa_c a)) m) (m_base (sa_moded a)) p v.
Proof.
  intros n a m p svd (En & Hw) Hr Hc OK Hp HL Hv. subst n. unfold satom_proximal. apply moded_proximal_correct; auto. intros x L Lx HL'. pose proof (sn_prox_ok (sa_r a) (sa_c a) svd Hr Hc OK (sa_k a) x L m Lx HL' ltac:(apply Hw)) as H. destruct m; auto.
Qed.
Theorem satom_value_ok : forall n a lam x svd chk, satom_wf n a (Lagrange lam) -> (1 <= sa_r a)%nat -> (1 <= sa_c a)%nat -> svd_ok (sa_r a) (sa_c a) svd -> length x = n ->
  satom_objective svd a x chk = Ok (moded_doc n (snfun (sa_k a) (sa_r a) (sa_c a)) (sa_moded a) (Lagrange lam) x).
Proof.
  intros n a lam x svd chk (En & Hw) Hr Hc OK Lx. subst n. unfold satom_objective. apply moded_objective_correct; auto. intros y Ly. destruct (svd_at _ _ svd OK y Ly) as (U & D & V & Es & Sv). eapply sn_value; eauto.
Qed.
Theorem satom_feasible : forall n a b x svd, satom_wf n a (Bound b) -> (1 <= sa_r a)%nat -> (1 <= sa_c a)%nat -> svd_ok (sa_r a) (sa_c a) svd -> length x = n ->
  let q := quad_fun (coef (b_quadratic (m_base (sa_moded a)))) (fbcast n (center (b_quadratic (m_base (sa_moded a))))) (fbcast n (linear_term (b_quadratic (m_base (sa_moded a))))) (constant_term (b_quadratic (m_base (sa_moded a)))) x in
  let y := vsub x (base_off n (m_base (sa_moded a))) in
  satom_objective svd a x true = Ok (if Rle_dec (matrix_norm (sa_k a) (sa_r a) (sa_c a) y) (b * (1 + / 10 ^ 5)) then Fin q else PInf) /\
  satom_objective svd a x false = Ok (Fin q).
Proof.
  intros n a b x svd (En & El & Eb & Hm & Hw) Hr Hc OK Lx q y. subst n. unfold satom_objective, moded_objective, shifted_objective. rewrite Eb. cbn [bnd_of]. rewrite (base_apply_offset_eq (sa_r a * sa_c a)) by auto.
  assert (Q : q_func (b_quadratic (m_base (sa_moded a))) x = q). { apply q_func_doc; auto. destruct Hw as (_ & _ & H). auto. }
  rewrite Q. fold y. assert (Ly : length y = (sa_r a * sa_c a)%nat) by (unfold y; pose proof (base_off_length _ _ Hw); vlen).
  split; [|cbn; f_equal; f_equal; ring]. destruct (svd_at _ _ svd OK y Ly) as (U & D & V & Es & Sv). rewrite (sn_test (sa_r a) (sa_c a) svd Hr Hc y U V D Ly Es Sv). unfold rleb, tol.
  destruct (Rle_dec _ _); cbn; auto. f_equal. f_equal. ring.
Qed.
Theorem satom_conjugate_ok : forall n a m, satom_wf n a m -> coef (b_quadratic (m_base (sa_moded a))) = 0 ->
  exists d, satom_conjugate a = Some (Ok d) /\ sa_k d = spair (sa_k a) /\ sa_r d = sa_r a /\ sa_c d = sa_c a /\ satom_wf n d (dual_mode m) /\
    (forall u, length u = n -> is_fenchel n (moded_doc n (snfun (sa_k a) (sa_r a) (sa_c a)) (sa_moded a) m) u (moded_doc n (snfun (sa_k d) (sa_r d) (sa_c d)) (sa_moded d) (dual_mode m) u)) /\
    exists e, satom_conjugate d = Some (Ok e) /\ sa_k e = sa_k a /\ sa_r e = sa_r a /\ sa_c e = sa_c a /\ satom_wf n e m /\
      forall v, length v = n -> moded_doc n (snfun (sa_k e) (sa_r e) (sa_c e)) (sa_moded e) m v = moded_doc n (snfun (sa_k a) (sa_r a) (sa_c a)) (sa_moded a) m v.
Proof.
  intros n a m (En & Hw) H0. assert (P : polar_pair n (snfun (sa_k a) (sa_r a) (sa_c a)) (snfun (spair (sa_k a)) (sa_r a) (sa_c a))). { subst n. destruct (sa_k a); [apply nuc_op_polar|apply op_nuc_polar]. }
  destruct (moded_conjugate_correct n _ _ _ _ Hw H0 P) as (d & Ed & Wd & Fd & e & Ee & We & Fe). exists (mk_satom (spair (sa_k a)) (sa_r a) (sa_c a) d). unfold satom_conjugate. rewrite Ed. cbn [option_map rmap sa_k sa_r sa_c sa_moded].
  do 4 (split; auto). split; [split; auto|]. split; auto. rewrite Ee. cbn [option_map rmap]. assert (SP : spair (spair (sa_k a)) = sa_k a) by (destruct (sa_k a); auto). rewrite SP.
  eexists. split; [reflexivity|]. cbn [sa_k sa_r sa_c sa_moded]. do 3 (split; auto). split; [split; auto|]. auto.
Qed.
Theorem satom_new : forall k r c m o q, mode_ok m -> (forall v, o = Some v -> length v = (r * c)%nat) -> q_shape (r * c) q ->
  exists a, new_satom k r c (lag_of m) (bnd_of m) o (Some q) = Ok a /\ sa_k a = k /\ sa_r a = r /\ sa_c a = c /\ satom_wf (r * c) a m /\ m_base (sa_moded a) = new_base (r * c) o (Some q).
Proof.
  intros k r c m o q Hm Ho Hq. unfold new_satom. rewrite new_moded_ok by auto. cbn [rmap]. eexists. split; [reflexivity|]. cbn [sa_k sa_r sa_c sa_moded m_base]. do 3 (split; auto). split; auto. split; auto. split; [auto|]. split; [auto|]. split; [auto|]. apply new_base_wf; auto.
Qed.
Theorem satom_copy_ok : forall n a m, satom_wf n a m -> satom_copy a = Ok a.
Proof.
  intros n [k r c mo] m (En & El & Eb & Hm & Hw). cbn [sa_k sa_r sa_c sa_moded] in *. unfold satom_copy, new_satom. cbn [sa_k sa_r sa_c sa_moded]. rewrite El, Eb, new_moded_ok by auto. rewrite En, P_block3.new_base_same by auto. cbn [rmap]. do 2 f_equal. rewrite <- El, <- Eb. destruct mo; auto.
Qed.
