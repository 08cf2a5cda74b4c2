(** Block norms: proximal maps and objects. *)
From Coq Require Import Reals List Lra Lia Psatz Bool Arith.
From Verif Require Import Vec Spec SpecAtom M_quad M_prox M_semi M_shift M_mode SpecBase SpecMode SpecModed SpecWeighted SpecPart SpecBlock M_block SpecBatom
  P_pl P_quad P_prox P_semi P_cones P_feas P_shift P_gauge P_part P_slope P_mixed P_group P_block.
Import ListNotations.
Local Open Scope R_scope.

Lemma collect_ok : forall {A B} (f : A -> res B) (P : A -> B -> Prop) l, (forall x, In x l -> exists y, f x = Ok y /\ P x y) -> exists ys, collect f l = Ok ys /\ Forall2 P l ys.
Proof.
  intros A B f P l. induction l as [|x l IH]; intros H; cbn [collect]; [exists []; auto|].
  destruct (H x) as (y & Ey & Py); [left; auto|]. destruct IH as (ys & Eys & Pys); [intros; apply H; right; auto|].
  rewrite Ey. cbn [rbind]. rewrite Eys. exists (y :: ys). auto.
Qed.
Lemma collect_map : forall {A B} (f : A -> res B) (g : A -> B) l, (forall x, In x l -> f x = Ok (g x)) -> collect f l = Ok (map g l).
Proof.
  intros A B f g l. induction l as [|x l IH]; intros H; cbn [collect map]; auto. rewrite H by (left; auto). cbn [rbind]. rewrite IH by (intros; apply H; right; auto). auto.
Qed.
Lemma collect_err : forall {A B} (f : A -> res B) e l x, In x l -> f x = Err e -> (forall y, In y l -> (exists v, f y = Ok v) \/ f y = Err e) -> collect f l = Err e.
Proof.
  intros A B f e l. induction l as [|y l IH]; intros x Hx Ex H; [destruct Hx|]. cbn [collect].
  destruct (H y) as [[v E]|E]; [left; auto| |]; rewrite E; cbn [rbind]; auto.
  destruct Hx as [->|Hx]; [congruence|]. rewrite (IH x); auto. intros; apply H; right; auto.
Qed.

(** ** Row scalings *)
Lemma l2_pcert : forall c k t x, length x = c -> 0 <= k <= 1 -> (1 - k) * norm x <= t -> (1 - k) * norm x = t \/ k * norm x = 0 -> pcert c (doc_seminorm CL2) t x (vscal k x).
Proof.
  intros c k t x Lx Hk H1 H2. split; auto. split; [vlen|]. exists (norm (vscal k x)). pose proof (norm_nonneg x) as Nx.
  assert (E : forall v, length v = c -> dot (vsub x (vscal k x)) v = (1 - k) * dot x v) by (intros v Lv; rewrite dot_sub_l, dot_scal_l by vlen; lra).
  split; [cbn [doc_seminorm]; rewrite ell2_norm; auto|]. split.
  - intros v s Lv Ev. cbn [doc_seminorm] in Ev. injection Ev as <-. rewrite ell2_norm, E by auto. pose proof (cauchy_schwarz x v ltac:(congruence)) as CS. pose proof (norm_nonneg v).
    apply Rle_trans with ((1 - k) * norm x * norm v); [|apply Rmult_le_compat_r; auto].
    rewrite Rmult_assoc. apply Rmult_le_compat_l; [lra|]. apply Rabs_le_inv in CS || idtac. lra.
  - rewrite E by vlen. rewrite dot_scal_r, norm_scal, Rabs_right by (try lra; vlen). pose proof (norm_sq x) as S. unfold sqn in S. replace (dot x x) with (norm x * norm x) by lra.
    destruct H2 as [H2|H2]; [rewrite <- H2; ring|]. replace ((1 - k) * (k * (norm x * norm x))) with ((1 - k) * norm x * (k * norm x)) by ring. rewrite H2. ring.
Qed.
Lemma norm_pos_of : forall (x : vec) c, length x = c -> x <> zeros c -> 0 < norm x.
Proof. intros x c L H. pose proof (norm_nonneg x) as N. destruct (Req_dec (norm x) 0) as [E|E]; [|lra]. apply norm_eq_zero in E. rewrite E, L in H. congruence. Qed.
Lemma scale_row_ok : forall f c (x : vec), length x = c -> x <> zeros c -> scale_row f x = Ok (vscal (f (norm x) / norm x) x).
Proof.
  intros f c x L H. pose proof (norm_pos_of x c L H). destruct x; [simpl in L; subst; destruct H; auto|]. cbn [scale_row]. destruct (Req_EM_T _ 0); [lra|]. auto.
Qed.
Lemma scale_row_zero : forall f c, (0 < c)%nat -> scale_row f (zeros c) = Err NaNResult.
Proof. intros f c H. destruct c as [|c]; [lia|]. cbn [zeros repeat scale_row]. change (0 :: repeat 0 c) with (zeros (S c)). rewrite norm_zeros. destruct (Req_EM_T 0 0); auto. lra. Qed.
Definition no_zero_row (r c : nat) (x : vec) : Prop := ~ zero_row r c x.
Lemma in_rows : forall r c x row, length x = (r * c)%nat -> In row (rows r c x) -> length row = c.
Proof. intros r c x row L H. pose proof (rows_lengths r c x L) as F. rewrite Forall_forall in F. auto. Qed.
Lemma scale_rows_ok : forall f r c x, length x = (r * c)%nat -> no_zero_row r c x ->
  scale_rows f r c x = Ok (concat (map (fun row => vscal (f (norm row) / norm row) row) (rows r c x))).
Proof.
  intros f r c x L H. unfold scale_rows. rewrite collect_map with (g := fun row => vscal (f (norm row) / norm row) row); auto.
  intros row HI. apply (scale_row_ok _ c); [apply (in_rows r c x); auto|]. intros ->. apply H. auto.
Qed.
Lemma scale_rows_zero : forall f r c x, (0 < c)%nat -> length x = (r * c)%nat -> zero_row r c x -> scale_rows f r c x = Err NaNResult.
Proof.
  intros f r c x Hc L H. unfold scale_rows. rewrite collect_err with (e := NaNResult) (x := zeros c); auto using scale_row_zero.
  intros row HI. pose proof (in_rows r c x row L HI) as Lr. destruct (list_eq_dec Req_EM_T row (zeros c)) as [->|N]; [right; apply scale_row_zero; auto|].
  left. rewrite (scale_row_ok f c) by auto. eauto.
Qed.
Lemma Forall2_map_r : forall {A B} (P : A -> B -> Prop) (g : A -> B) l, (forall x, In x l -> P x (g x)) -> Forall2 P l (map g l).
Proof. intros A B P g l. induction l as [|x l IH]; intros H; constructor; [apply H; left; auto|]. apply IH. intros; apply H; right; auto. Qed.
(** Cutting every row norm at t *)
Lemma cut_pcert : forall r c x t g, length x = (r * c)%nat -> no_zero_row r c x -> 0 <= t -> (forall a, 0 <= a -> g a = pos (a - t)) ->
  pcert (r * c) (bfun L1L2 r c) t x (concat (map (fun row => vscal (g (norm row) / norm row) row) (rows r c x))) /\
  bfun L1L2 r c (concat (map (fun row => vscal (g (norm row) / norm row) row) (rows r c x))) = Fin (vsum (map (fun a => pos (a - t)) (row_norms r c x))).
Proof.
  intros r c x t g L H Ht Hg. split.
  - cbn [bfun]. apply rows_pcert; auto. apply Forall2_map_r. intros row HI. pose proof (in_rows r c x row L HI) as Lr.
    assert (N : 0 < norm row) by (apply (norm_pos_of row c); auto; intros ->; apply H; auto). rewrite Hg by lra.
    assert (K : pos (norm row - t) = 0 /\ norm row <= t \/ pos (norm row - t) = norm row - t /\ t <= norm row).
    { unfold pos. destruct (Rle_dec (norm row) t); [left; rewrite Rmax_right|right; rewrite Rmax_left]; lra. }
    assert (I : norm row * / norm row = 1) by (field; lra). assert (Ip : 0 < / norm row) by (apply Rinv_0_lt_compat; auto).
    apply l2_pcert; auto; unfold Rdiv.
    + destruct K as [[-> K]|[-> K]]; [lra|]. nra.
    + destruct K as [[-> K]|[-> K]]; [lra|]. right. rewrite Rmult_minus_distr_r, Rmult_1_l, Rmult_assoc, (Rmult_comm (/ _)), I. lra.
    + destruct K as [[-> K]|[-> K]]; [right; lra|]. left. rewrite Rmult_minus_distr_r, Rmult_1_l, Rmult_assoc, (Rmult_comm (/ _)), I. lra.
  - cbn [bfun]. unfold row_sum. assert (LL : length (map (fun row => vscal (g (norm row) / norm row) row) (rows r c x)) = r) by (rewrite map_length, rows_length; auto).
    rewrite <- LL at 1. rewrite rows_concat. 2:{ apply Forall_map. eapply Forall_impl; [|apply rows_lengths; auto]. simpl. intros a E. rewrite vscal_length. auto. }
    rewrite map_map. unfold row_norms. rewrite map_map, <- ext_sum_fin. f_equal. apply map_ext_in. intros row HI. cbn [doc_seminorm]. f_equal. rewrite ell2_norm.
    pose proof (in_rows r c x row L HI) as Lr. assert (N : 0 < norm row) by (apply (norm_pos_of row c); auto; intros ->; apply H; auto).
    rewrite Hg by lra. assert (P : 0 <= pos (norm row - t)) by (unfold pos; apply Rmax_r). rewrite norm_scal, Rabs_right.
    + field. lra.
    + apply Rle_ge. apply Rmult_le_pos; auto. left. apply Rinv_0_lt_compat. auto.
Qed.
Lemma row_norms_nonneg : forall r c x, Forall (fun a => 0 <= a) (row_norms r c x).
Proof. intros. apply Forall_map, Forall_forall. intros; apply norm_nonneg. Qed.
Lemma row_norms_ne : forall r c x, (0 < r)%nat -> row_norms r c x <> [].
Proof. intros r c x H E. apply (f_equal (@length R)) in E. unfold row_norms in E. rewrite map_length, rows_length in E. simpl in E. lia. Qed.
Lemma l1l2_value : forall r c x, bfun L1L2 r c x = Fin (vsum (row_norms r c x)).
Proof. intros. cbn [bfun]. unfold row_sum, row_norms. rewrite <- ext_sum_fin. f_equal. apply map_ext. intros. cbn [doc_seminorm]. rewrite ell2_norm. auto. Qed.
Lemma linfl2_value : forall r c x, bfun LinfL2 r c x = Fin (rmaxl (row_norms r c x)).
Proof. intros. cbn [bfun]. unfold row_max, row_norms. rewrite <- ext_max_fin. f_equal. apply map_ext. intros. cbn [doc_seminorm]. rewrite ell2_norm. auto. Qed.
Theorem l1l2_lagrange : forall r c x L lam, length x = (r * c)%nat -> no_zero_row r c x -> 0 < L -> 0 <= lam ->
  exists p, bl_lagrange_prox L1L2 r c x L lam = Ok p /\ is_unique_argmin (r * c) (prox_objective L x (gmode (bfun L1L2 r c) (Lagrange lam))) p.
Proof.
  intros r c x L lam Lx H HL Hlam. cbn [bl_lagrange_prox]. rewrite scale_rows_ok by auto. eexists; split; [reflexivity|]. apply pcert_prox; auto.
  apply (cut_pcert r c x (lam / L) (fun n => Rmax (n - lam / L) 0)); auto. apply Rmult_le_pos; auto. left. apply Rinv_0_lt_compat; auto.
Qed.
Lemma excess_pos : forall t a, 0 <= t -> excess t a = pos (a - t).
Proof. intros t a Ht. unfold excess, pos. destruct (Rlt_dec t a); [rewrite Rmax_left|rewrite Rmax_right]; lra. Qed.
Lemma rescale_one : forall r c x (g : R -> R), length x = (r * c)%nat -> no_zero_row r c x -> (forall row, In row (rows r c x) -> g (norm row) = norm row) -> concat (map (fun row => vscal (g (norm row) / norm row) row) (rows r c x)) = x.
Proof.
  intros r c x g L H Hg. rewrite <- (concat_rows r c x) at 2 by auto. f_equal. rewrite <- (map_id (rows r c x)) at 2. apply map_ext_in. intros row HI.
  pose proof (in_rows r c x row L HI) as Lr. assert (N : 0 < norm row) by (apply (norm_pos_of row c); auto; intros ->; apply H; auto).
  rewrite Hg by auto. replace (norm row / norm row) with 1 by (field; lra). apply vscal_1.
Qed.
Theorem l1l2_bound : forall r c x b, (0 < r)%nat -> length x = (r * c)%nat -> no_zero_row r c x -> 0 <= b ->
  exists p, bl_bound_prox L1L2 r c x b = Ok p /\ is_proj (r * c) (gball (bfun L1L2 r c) b) x p.
Proof.
  intros r c x b Hr Lx H Hb. cbn [bl_bound_prox].
  destruct (find_c_slope0_root b (row_norms r c x) (row_norms_ne r c x Hr) Hb (row_norms_nonneg r c x)) as (t & Et & Ht & T1 & T2). rewrite Et. cbn [rbind].
  rewrite scale_rows_ok by auto. eexists; split; [reflexivity|].
  destruct (cut_pcert r c x t (excess t) Lx H Ht) as [P V]. { intros; apply excess_pos; auto. }
  destruct (Rlt_dec (vsum (row_norms r c x)) b) as [C|C].
  - specialize (T1 C). subst t. rewrite rescale_one; auto. 2:{ intros row HI. rewrite excess_pos by lra. unfold pos. rewrite Rminus_0_r. apply Rmax_left, norm_nonneg. }
    apply proj_inside; auto. unfold gball. rewrite l1l2_value. simpl. lra.
  - apply pcert_ball with (c := t); auto. rewrite V. f_equal. apply T2. lra.
Qed.
Theorem linfl2_lagrange : forall r c x L lam, (0 < r)%nat -> length x = (r * c)%nat -> no_zero_row r c x -> 0 < L -> 0 <= lam ->
  exists p, bl_lagrange_prox LinfL2 r c x L lam = Ok p /\ is_unique_argmin (r * c) (prox_objective L x (gmode (bfun LinfL2 r c) (Lagrange lam))) p.
Proof.
  intros r c x L lam Hr Lx H HL Hlam. cbn [bl_lagrange_prox]. assert (Hb : 0 <= lam / L) by (apply Rmult_le_pos; auto; left; apply Rinv_0_lt_compat; auto).
  destruct (find_c_slope0_root (lam / L) (row_norms r c x) (row_norms_ne r c x Hr) Hb (row_norms_nonneg r c x)) as (t & Et & Ht & T1 & T2). rewrite Et. cbn [rbind].
  rewrite scale_rows_ok by auto. eexists; split; [reflexivity|].
  set (q := concat (map (fun row => vscal (excess t (norm row) / norm row) row) (rows r c x))).
  destruct (cut_pcert r c x t (excess t) Lx H Ht) as [P V]. { intros; apply excess_pos; auto. } fold q in P, V.
  assert (E : concat (map (fun row => vscal ((norm row - excess t (norm row)) / norm row) row) (rows r c x)) = vsub x q).
  { unfold q. clear P V. rewrite <- (concat_rows r c x) at 2 by auto. assert (F : Forall (fun row => row <> zeros c /\ length row = c) (rows r c x)).
    { apply Forall_forall. intros row HI. split; [intros ->; apply H; auto|]. apply (in_rows r c x); auto. }
    induction F as [|row l [N Lr] F IH]; auto. cbn [map concat]. unfold vsub in *. rewrite vzip_app by vlen. rewrite IH. f_equal.
    pose proof (norm_pos_of row c Lr N) as Np. pose proof (vsub_scal_self (excess t (norm row) / norm row) row) as Q. unfold vsub in Q. rewrite Q. f_equal. field. lra. }
  rewrite E. destruct (Rlt_dec (vsum (row_norms r c x)) (lam / L)) as [C|C].
  - specialize (T1 C). subst t. assert (Eq : q = x). { unfold q. apply rescale_one; auto. intros row HI. rewrite excess_pos by lra. unfold pos. rewrite Rminus_0_r. apply Rmax_left, norm_nonneg. }
    rewrite Eq. apply inside_polar_prox with (h := bfun L1L2 r c) (r := vsum (row_norms r c x)); auto; [exact (bfun_polar LinfL2 r c)|apply l1l2_value|lra].
  - apply pcert_polar_prox with (h := bfun L1L2 r c) (c := t); auto; [exact (bfun_polar LinfL2 r c)|exact (bfun_polar L1L2 r c)|]. rewrite V. f_equal. apply T2. lra.
Qed.
Theorem linfl2_bound : forall r c x b, length x = (r * c)%nat -> 0 <= b -> 0 < b \/ no_zero_row r c x ->
  exists p, bl_bound_prox LinfL2 r c x b = Ok p /\ is_proj (r * c) (gball (bfun LinfL2 r c) b) x p.
Proof.
  intros r c x b Lx Hb H. cbn [bl_bound_prox].
  destruct (collect_ok (shrink_row b) (is_proj c (gball (doc_seminorm CL2) b)) (rows r c x)) as (ps & E & F).
  - intros row HI. pose proof (in_rows r c x row Lx HI) as Lr. unfold shrink_row. pose proof (norm_nonneg row) as N. destruct (Rle_dec b (norm row)) as [C|C].
    + assert (Nz : row <> zeros c). { intros ->. destruct H as [H|H]; [rewrite norm_zeros in C; lra|]. apply H. auto. }
      pose proof (norm_pos_of row c Lr Nz) as Np. rewrite (scale_row_ok _ c) by auto. eexists; split; [reflexivity|]. apply bound_l2 with (x := row); auto. cbn [bound_prox].
      destruct (Rle_dec (norm row) b); auto. replace b with (norm row) by lra. replace (norm row / norm row) with 1 by (field; lra). rewrite vscal_1. auto.
    + exists row. split; auto. apply bound_l2 with (x := row); auto. cbn [bound_prox]. destruct (Rle_dec (norm row) b); auto. lra.
  - rewrite E. exists (concat ps). split; auto. cbn [bfun]. apply rows_proj; auto. intros; apply doc_pos.
Qed.
(** ** l1_l1 and linf_linf are the plain norms of the flattened matrix *)
Lemma l1_rows : forall r c x, length x = (r * c)%nat -> bfun L1L1 r c x = doc_seminorm CL1 x.
Proof.
  intros r c x L. cbn [bfun]. unfold row_sum. rewrite <- (concat_rows r c x L) at 2. generalize (rows r c x). intros l. induction l as [|row l IH]; auto.
  cbn [map concat]. unfold ext_sum in *. cbn [fold_right]. rewrite IH. cbn [doc_seminorm ext_add]. f_equal. unfold ell1, vabs. rewrite map_app, vsum_app. auto.
Qed.
Lemma sup_rows : forall r c x, length x = (r * c)%nat -> bfun LinfLinf r c x = doc_seminorm CSup x.
Proof.
  intros r c x L. cbn [bfun]. unfold row_max. rewrite <- (concat_rows r c x L) at 2. generalize (rows r c x). intros l. induction l as [|row l IH]; auto.
  cbn [map concat]. unfold ext_maximum in *. cbn [fold_right]. rewrite IH. cbn [doc_seminorm ext_max]. f_equal. apply le_antisym_char. intros k.
  destruct (Rle_dec 0 k) as [P|P].
  - rewrite ellinf_le by auto. rewrite Forall_app, <- !ellinf_le by auto. split; [intros H|intros [H1 H2]; apply Rmax_lub; auto].
    pose proof (Rmax_l (ellinf row) (ellinf (concat l))). pose proof (Rmax_r (ellinf row) (ellinf (concat l))). lra.
  - pose proof (ellinf_nonneg (row ++ concat l)). pose proof (Rmax_l (ellinf row) (ellinf (concat l))). pose proof (ellinf_nonneg row). lra.
Qed.
Theorem l1l1_lagrange : forall r c x L lam, length x = (r * c)%nat -> 0 < L -> 0 <= lam ->
  exists p, bl_lagrange_prox L1L1 r c x L lam = Ok p /\ is_unique_argmin (r * c) (prox_objective L x (gmode (bfun L1L1 r c) (Lagrange lam))) p.
Proof.
  intros r c x L lam Lx HL Hlam. eexists; split; [reflexivity|].
  apply argmin_ext with (F := prox_objective L x (fun v => ext_scale lam (doc_seminorm CL1 v))).
  - intros v Lv. unfold prox_objective, gmode. rewrite l1_rows by auto. auto.
  - apply lagrange_l1; auto. cbn [lagrange_prox]. unfold l1_lagrange. f_equal. apply map_ext. intros; apply Rmult_comm.
Qed.
Theorem linflinf_lagrange : forall r c x L lam, (0 < r * c)%nat -> length x = (r * c)%nat -> 0 < L -> 0 <= lam ->
  exists p, bl_lagrange_prox LinfLinf r c x L lam = Ok p /\ is_unique_argmin (r * c) (prox_objective L x (gmode (bfun LinfLinf r c) (Lagrange lam))) p.
Proof.
  intros r c x L lam Hn Lx HL Hlam. destruct (lagrange_prox_correct CSup (r * c) x L lam) as (p & E & A); auto. exists p. split; auto.
  eapply argmin_ext; [|exact A]. intros v Lv. unfold prox_objective, gmode. rewrite sup_rows by auto. auto.
Qed.
Lemma proj_ext : forall n (S T : vec -> Prop) x p, (forall v, length v = n -> S v <-> T v) -> is_proj n S x p -> is_proj n T x p.
Proof. intros n S T x p E (A & B & C). split; auto. split; [apply E; auto|]. intros v Lv Hv. apply C; auto. apply E; auto. Qed.
Theorem l1l1_bound : forall r c x b, (0 < r * c)%nat -> length x = (r * c)%nat -> 0 <= b ->
  exists p, bl_bound_prox L1L1 r c x b = Ok p /\ is_proj (r * c) (gball (bfun L1L1 r c) b) x p.
Proof.
  intros r c x b Hn Lx Hb. destruct (bound_prox_correct CL1 (r * c) x b) as (p & E & A); auto. exists p. split; auto.
  eapply proj_ext; [|exact A]. intros v Lv. unfold gball, in_ball. rewrite l1_rows by auto. tauto.
Qed.
Theorem linflinf_bound : forall r c x b, length x = (r * c)%nat -> 0 <= b ->
  exists p, bl_bound_prox LinfLinf r c x b = Ok p /\ is_proj (r * c) (gball (bfun LinfLinf r c) b) x p.
Proof.
  intros r c x b Lx Hb. eexists; split; [reflexivity|]. apply proj_ext with (S := in_ball CSup b).
  - intros v Lv. unfold gball, in_ball. rewrite sup_rows by auto. tauto.
  - apply bound_sup; auto.
Qed.

(** ** Objects *)
(** What the argument of the proximal map must satisfy *)
Theorem bl_prox_correct : forall k r c x L m, length x = (r * c)%nat -> 0 < L -> mode_ok m -> row_legal k m r c x ->
  match m with
  | Lagrange lam => exists e, bl_lagrange_prox k r c x L lam = Ok e /\ is_unique_argmin (r * c) (prox_objective L x (gmode (bfun k r c) (Lagrange lam))) e
  | Bound b => exists e, bl_bound_prox k r c x b = Ok e /\ is_proj (r * c) (gball (bfun k r c) b) x e
  end.
Proof.
  intros k r c x L m Lx HL Hm H. destruct k, m; simpl in Hm, H; try (destruct H; fail).
  - apply l1l2_lagrange; auto.
  - apply l1l2_bound; tauto.
  - apply linfl2_lagrange; tauto.
  - apply linfl2_bound; auto.
  - apply l1l1_lagrange; auto.
  - apply l1l1_bound; auto.
  - apply linflinf_lagrange; auto.
  - apply linflinf_bound; auto.
Qed.
Theorem shifted_prox_at : forall n g p, base_wf n g -> q_shape n p -> 0 < coef (b_quadratic g) + coef p -> some_array g p ->
  exists y, length y = n /\ total_centre n g p y /\ (forall inner e, inner y (coef (b_quadratic g) + coef p) = Err e -> shifted_prox g (AQuad p) inner = Err e) /\
    forall inner e h, inner y (coef (b_quadratic g) + coef p) = Ok e -> is_unique_argmin n (prox_objective (coef (b_quadratic g) + coef p) y h) e ->
      exists v, shifted_prox g (AQuad p) inner = Ok v /\ prox_spec n h g p v.
Proof.
  intros n [sh o q] p Hwf Hp HL Hv. destruct Hwf as (Hs & Ho & Hq). unfold some_array, prox_spec, total_centre, base_doc, base_off in *. simpl in *.
  assert (Ho' : forall v, o = Some v -> length v = n) by (intros; apply Ho; auto).
  assert (Hv' : has_vec q \/ has_vec p \/ (exists v, o = Some v /\ v <> zeros n)).
  { destruct Hv as [H|[H|H]]; auto. right. right. destruct o as [v|]; [|congruence]. exists v. split; auto. apply Ho; auto. }
  destruct (setup n q p o Hq Hp Ho' Hv') as (s & off' & tq & l & E1 & E2 & Ec & El & Ll & Eoff & Eo' & Hl).
  set (off := off_vec n o) in *. set (L := coef q + coef p) in *.
  assert (Hoff : length off = n). { unfold off. destruct o; simpl; auto. vlen. }
  set (arg := map (fun t => - t / L) l). assert (Larg : length arg = n) by (unfold arg; vlen).
  destruct (q_denot_slope n q Hq) as (k1 & K1). destruct (q_denot_slope n p Hp) as (k2 & K2).
  pose proof (q_slope_length n q Hq) as Lq. pose proof (q_slope_length n p Hp) as Lp.
  assert (Earg : forall v, dot arg v = - / L * dot l v).
  { intros v. unfold arg. rewrite <- dot_scal_l. f_equal. unfold vscal. apply map_ext. intros. field. lra. }
  assert (TC : forall v, length v = n -> q_denot n q v + q_denot n p v = L / 2 * sqn (vsub v (vadd arg off)) + (k1 + k2 - L / 2 * sqn (vadd arg off))).
  { intros v Lv. rewrite K1, K2 by auto. rewrite sqn_sub, (dot_comm v), dot_add_l by vlen. rewrite Earg, Hl, !dot_add_l, dot_scal_l by vlen. unfold L. field. unfold L in *. lra. }
  exists arg. split; auto. split; [eexists; intros v Lv; apply TC; auto|]. split.
  - intros inner e Ee. unfold shifted_prox. cbn [b_quadratic b_offset]. rewrite E1. cbn [rbind]. rewrite E2. cbn [rbind].
    rewrite Ec. destruct (Req_EM_T L 0) as [C|C]; [lra|]. rewrite El. fold arg. rewrite Ee. destruct off'; auto.
  - intros inner e h Ee He. exists (vadd e off). split.
    + unfold shifted_prox. cbn [b_quadratic b_offset]. rewrite E1. cbn [rbind]. rewrite E2. cbn [rbind].
      rewrite Ec. destruct (Req_EM_T L 0) as [C|C]; [lra|]. rewrite El. fold arg. rewrite Ee. destruct off' as [o1|].
      * simpl in Eoff. subst o1. auto.
      * simpl in Eoff. rewrite <- Eoff. rewrite vadd_zeros_r; auto. destruct He as [[H _] _]. auto.
    + apply argmin_transport with (G := prox_objective L arg h) (k := k1 + k2 - L / 2 * sqn (vadd arg off)); auto.
      intros v Hvn. unfold prox_objective. rewrite vsub_vadd by congruence. destruct (h v) as [t|]; cbn [ext_add]; auto. f_equal.
      fold (q_denot n q (vadd v off)). fold (q_denot n p (vadd v off)). rewrite Rplus_assoc, TC by vlen.
      assert (Q : sqn (vsub (vadd v off) (vadd arg off)) = sqn (vsub arg v)).
      { rewrite !sqn_sub, !sqn_add, !dot_add_l, !dot_add_r by vlen. rewrite (dot_comm arg v), (dot_comm off arg). unfold sqn. lra. }
      rewrite Q. lra.
Qed.
(** proximal() of the four concrete classes: correct when the rows it divides by are not zero, a nan otherwise *)
Theorem batom_proximal_correct : forall n a m p, batom_wf n a m -> q_shape n p -> 0 < coef (b_quadratic (m_base (b_moded a))) + coef p -> some_array (m_base (b_moded a)) p ->
  exists y, length y = n /\ total_centre n (m_base (b_moded a)) p y /\
    (row_legal (bk a) m (b_r a) (b_c a) y -> exists v, batom_proximal a (AQuad p) = Ok v /\ prox_spec n (gmode (bfun (bk a) (b_r a) (b_c a)) m) (m_base (b_moded a)) p v) /\
    (zero_row (b_r a) (b_c a) y -> (0 < b_c a)%nat -> (bk a = L1L2 \/ bk a = LinfL2 /\ (exists lam, m = Lagrange lam)) \/ bk a = LinfL2 /\ m = Bound 0 ->
      batom_proximal a (AQuad p) = Err NaNResult).
Proof.
  intros n a m p (En & (El & Eb & Hm & Hwf) & _ & _) Hp HL Hv. subst n.
  destruct (shifted_prox_at _ _ _ Hwf Hp HL Hv) as (y & Ly & TC & HE & HO). exists y. split; auto. split; auto. split.
  - intros H. pose proof (bl_prox_correct (bk a) (b_r a) (b_c a) y (coef (b_quadratic (m_base (b_moded a))) + coef p) m Ly HL Hm H) as C.
    unfold batom_proximal, moded_proximal. rewrite El, Eb. destruct m as [lam|b]; cbn [lag_of bnd_of need rbind].
    + destruct C as (e & Ee & Ae). apply (HO _ e); auto.
    + destruct C as (e & Ee & Ae). apply (HO _ e); auto. apply gball_argmin; auto.
  - intros Z Hc K. unfold batom_proximal, moded_proximal. apply HE. rewrite El, Eb.
    assert (Hr : (0 < b_r a)%nat) by (destruct (b_r a); [destruct Z|lia]).
    assert (NE := row_norms_ne (b_r a) (b_c a) y Hr). assert (NN := row_norms_nonneg (b_r a) (b_c a) y).
    destruct m as [lam|b]; cbn [lag_of bnd_of need rbind].
    + simpl in Hm. assert (Hb : 0 <= lam / (coef (b_quadratic (m_base (b_moded a))) + coef p)) by (apply Rmult_le_pos; auto; left; apply Rinv_0_lt_compat; auto).
      destruct K as [[->|[-> _]]|[_ K]]; [| |discriminate]; cbn [bl_lagrange_prox].
      * apply scale_rows_zero; auto.
      * destruct (find_c_slope0_root _ _ NE Hb NN) as (t & Et & _). rewrite Et. cbn [rbind]. apply scale_rows_zero; auto.
    + simpl in Hm. destruct K as [[->|[-> [lam K]]]|[-> K]]; [|discriminate|]; cbn [bl_bound_prox].
      * destruct (find_c_slope0_root _ _ NE Hm NN) as (t & Et & _). rewrite Et. cbn [rbind]. apply scale_rows_zero; auto.
      * injection K as ->. rewrite collect_err with (e := NaNResult) (x := zeros (b_c a)); auto.
        { unfold shrink_row. rewrite norm_zeros. destruct (Rle_dec 0 0); [|lra]. apply scale_row_zero; auto. }
        intros row HI. pose proof (in_rows _ _ _ _ Ly HI) as Lr. unfold shrink_row. destruct (Rle_dec 0 (norm row)); [|left; eauto].
        destruct (list_eq_dec Req_EM_T row (zeros (b_c a))) as [->|N]; [right; apply scale_row_zero; auto|]. left. rewrite (scale_row_ok _ (b_c a)) by auto. eauto.
Qed.
(** ** The generic classes *)
Theorem block_generic_prox : forall n a m p s, batom_wf n a m -> q_shape n p -> 0 < coef (b_quadratic (m_base (b_moded a))) + coef p -> some_array (m_base (b_moded a)) p ->
  (bk a = BSum s -> (exists lam, m = Lagrange lam) -> batom_proximal a (AQuad p) = Err NameError) /\
  (bk a = BMax s -> (exists b, m = Bound b) -> batom_proximal a (AQuad p) = Err NameError) /\
  (bk a = BMax s -> (exists lam, m = Lagrange lam) -> batom_proximal a (AQuad p) = Err ValueError) /\
  (bk a = BSum s -> (exists b, m = Bound b) -> b_offset (m_base (b_moded a)) = None -> batom_proximal a (AQuad p) = Ok (zeros n)).
Proof.
  intros n a m p s (En & (El & Eb & Hm & Hwf) & _ & _) Hp HL Hv. subst n.
  destruct (shifted_prox_at _ _ _ Hwf Hp HL Hv) as (y & Ly & TC & HE & HO). unfold batom_proximal, moded_proximal. rewrite El, Eb.
  split; [|split; [|split]].
  - intros -> (lam & ->). apply HE. auto.
  - intros -> (b & ->). apply HE. auto.
  - intros -> (lam & ->). apply HE. auto.
  - intros -> (b & ->) Ho. destruct (m_base (b_moded a)) as [sh o q]. destruct Hwf as (Hs & _ & Hq). unfold some_array in Hv. simpl in *. subst o.
    assert (Hv' : has_vec q \/ has_vec p \/ (exists v, @None vec = Some v /\ v <> zeros (b_r a * b_c a))) by (destruct Hv as [H|[H|H]]; auto; congruence).
    destruct (setup (b_r a * b_c a) q p None Hq Hp ltac:(discriminate) Hv') as (s1 & off' & tq & l & E1 & E2 & Ec & El' & Ll & Eoff & Eo' & Hl).
    unfold shifted_prox. cbn [b_quadratic b_offset]. rewrite E1. cbn [rbind]. rewrite E2. cbn [rbind]. rewrite Ec. destruct (Req_EM_T _ 0) as [C|C]; [lra|]. rewrite El'.
    cbn [bl_bound_prox]. assert (Z : map (Rmult 0) (map (fun t => - t / (coef q + coef p)) l) = zeros (b_r a * b_c a)).
    { rewrite <- Ll. clear. induction l as [|u l IH]; auto. cbn [map length zeros repeat]. unfold zeros in IH. rewrite IH. f_equal. lra. }
    rewrite Z. destruct Eo' as [->| ->]; auto.
Qed.
