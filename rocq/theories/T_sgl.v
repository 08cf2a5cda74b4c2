(** C21 (sparse group lasso) and C22 (its dual norm by bisection). *)
From Coq Require Import Reals List Lra Lia Psatz ZArith Bool.
From Verif Require Import Vec Spec M_quad M_prox M_semi SpecAtom M_shift SpecBase SpecMode M_mode SpecModed SpecWeighted SpecPart SpecGroup M_mixed M_weighted M_group M_mixed_atom SpecGatom SpecLinear SpecSgl M_sgl SpecSglObj
  P_quad P_prox P_feas P_semi P_conj P_shift P_gauge P_slope P_part P_weighted P_kinds P_group P_group2 P_linear P_search P_sgl P_sgl2 P_sgl3 P_sgl4 P_sgl5 P_sgl6 P_sgl7.
Import ListNotations.
Local Open Scope R_scope.

(** ** C21 *)
(** lagrange_prox: the unique minimizer of  L/2||x-v||^2 + lam (sum_j a_j|v_j| + sum_g w_g||v[g]||).  Feature weights may be infinite. *)
Theorem C21_prox : forall labels lw given n x L lam, length labels = n -> length lw = n -> Forall weight_legal lw -> weights_nonneg labels given ->
  length x = n -> 0 < L -> 0 <= lam -> 0 < lam \/ ~ In PInf lw ->
  exists p, s_lagrange_prox labels lw given x L lam = Ok p /\ is_unique_argmin n (prox_objective L x (gmode (sparse_group labels lw (group_weight given labels)) (Lagrange lam))) p.
Proof. intros. apply s_lagrange_correct; auto. Qed.
Print Assumptions C21_prox.
(** The public proximal(), with offset and quadratic. *)
Theorem C21_proximal : forall n a lam p, sgl_wf n a (Lagrange lam) -> s_dual a = false -> no_zero_inf a lam -> q_shape n p ->
  0 < coef (b_quadratic (m_base (s_moded a))) + coef p -> some_array (m_base (s_moded a)) p ->
  exists v, sgl_proximal a (AQuad p) = Ok v /\ prox_spec n (gmode (spen a) (Lagrange lam)) (m_base (s_moded a)) p v.
Proof. exact sgl_proximal_lagrange. Qed.
Print Assumptions C21_proximal.
(** The dual object in bound mode: projection on b times the dual ball. *)
Theorem C21_dual_proximal : forall n a b p h, sgl_wf n a (Bound b) -> s_dual a = true -> no_zero_inf a b -> q_shape n p ->
  0 < coef (b_quadratic (m_base (s_moded a))) + coef p -> some_array (m_base (s_moded a)) p -> indicates n (dual_ball n (spen a) b) h ->
  exists v, sgl_proximal a (AQuad p) = Ok v /\ prox_spec n h (m_base (s_moded a)) p v.
Proof. exact sgl_proximal_dual. Qed.
Print Assumptions C21_dual_proximal.
(** The other two modes raise. *)
Theorem C21_missing_modes : forall n a m p, sgl_wf n a m -> s_dual a = (match m with Lagrange _ => true | Bound _ => false end) -> q_shape n p ->
  0 < coef (b_quadratic (m_base (s_moded a))) + coef p -> some_array (m_base (s_moded a)) p ->
  sgl_proximal a (AQuad p) = Err NotImplementedError.
Proof. exact sgl_proximal_missing. Qed.
Print Assumptions C21_missing_modes.
(** conjugate maps lam*P to the indicator of the dual ball and back. *)
Theorem C21_conjugate : forall n a lam h, sgl_wf n a (Lagrange lam) -> s_dual a = false -> coef (b_quadratic (m_base (s_moded a))) = 0 ->
  indicates n (dual_ball n (spen a) lam) h ->
  exists e, sgl_conjugate a = Some (Ok e) /\ s_dual e = true /\ sgl_wf n e (Bound lam) /\ spen e = spen a /\
    forall u, length u = n -> is_fenchel n (moded_doc n (spen a) (s_moded a) (Lagrange lam)) u (base_doc n h (m_base (s_moded e)) u).
Proof. exact sgl_conjugate_lagrange. Qed.
Print Assumptions C21_conjugate.
Theorem C21_dual_conjugate : forall n a b h, sgl_wf n a (Bound b) -> s_dual a = true -> coef (b_quadratic (m_base (s_moded a))) = 0 ->
  indicates n (dual_ball n (spen a) b) h ->
  exists e, sgl_conjugate a = Some (Ok e) /\ s_dual e = false /\ sgl_wf n e (Lagrange b) /\ spen e = spen a /\
    forall u, length u = n -> is_fenchel n (base_doc n h (m_base (s_moded a))) u (moded_doc n (spen e) (s_moded e) (Lagrange b) u).
Proof. exact sgl_conjugate_dual. Qed.
Print Assumptions C21_dual_conjugate.
Theorem C21_value : forall n a lam x fuel, sgl_wf n a (Lagrange lam) -> s_dual a = false -> length x = n ->
  sgl_objective a x true fuel = Ok (moded_doc n (spen a) (s_moded a) (Lagrange lam) x) /\
  (~ In PInf (s_lasso a) -> sgl_objective a x false fuel = Ok (moded_doc n (spen a) (s_moded a) (Lagrange lam) x)).
Proof. intros. split; [apply sgl_lagrange_value|intros; apply sgl_lagrange_value_finite]; auto. Qed.
Print Assumptions C21_value.
(** Feasibility, with the relative tolerance 1e-5. *)
Theorem C21_feasibility : forall labels lw given x b, length labels = length x -> length lw = length x -> Forall weight_legal lw -> weights_nonneg labels given -> 0 <= b ->
  let P := sparse_group labels lw (group_weight given labels) in
  (gball P b x -> s_constraint labels lw given x b = Ok (Fin 0)) /\ (s_constraint labels lw given x b = Ok (Fin 0) -> gball P (b * (1 + / 10 ^ 5)) x) /\
  (s_constraint labels lw given x b = Ok (Fin 0) \/ s_constraint labels lw given x b = Ok PInf).
Proof. exact s_feasibility. Qed.
Print Assumptions C21_feasibility.
Theorem C21_terms : forall labels a given x, length a = length labels -> length x = length labels -> Forall (fun r => 0 <= r) a ->
  Fin (vsum (s_terms labels a given x)) = sparse_group labels (map Fin a) (group_weight given labels) x.
Proof. exact s_terms_sum. Qed.
Print Assumptions C21_terms.
Theorem C21_construct : forall dual groups lw weights m o q, mode_ok m -> Forall weight_legal lw -> (length lw = length groups \/ length lw = 1%nat) ->
  weights_nonneg groups weights -> (forall v, o = Some v -> length v = length groups) -> q_shape (length groups) q ->
  exists a, new_sgl dual groups lw weights (lag_of m) (bnd_of m) o (Some q) = Ok a /\ s_dual a = dual /\ s_groups a = groups /\ sgl_wf (length groups) a m /\
    (length lw = length groups -> s_lasso a = lw) /\ (forall c, lw = [c] -> s_lasso a = repeat c (length groups)) /\
    (forall g, In g groups -> group_weight (s_weights a) groups g = group_weight weights groups g) /\ m_base (s_moded a) = new_base (length groups) o (Some q).
Proof. exact new_sgl_correct. Qed.
Print Assumptions C21_construct.
Theorem C21_construct_rejects : forall dual groups lw weights m o q, mode_ok m ->
  (length lw <> length groups /\ length lw <> 1%nat \/ (length lw = length groups \/ length lw = 1%nat /\ groups <> []) /\ ~ Forall weight_legal lw) ->
  new_sgl dual groups lw weights (lag_of m) (bnd_of m) o q = Err ValueError.
Proof. exact new_sgl_rejects. Qed.
Print Assumptions C21_construct_rejects.
(** The dual in bound mode is never infinite, and is 1 where it should be 0. *)
Theorem C21_dual_value_refuted : forall n a b x fuel, sgl_wf n a (Bound b) -> s_dual a = true -> length x = n ->
  (exists r, sgl_objective a x true fuel = Ok (Fin r)) /\
  (dual_ball n (spen a) 1 (base_apply_offset (m_base (s_moded a)) x) -> sgl_objective a x true fuel = Ok (Fin (1 + q_func (b_quadratic (m_base (s_moded a))) x))).
Proof. exact dual_bound_value. Qed.
Print Assumptions C21_dual_value_refuted.
(** The dual in Lagrange mode has no value. *)
Theorem C21_dual_lagrange_refuted : forall n a lam x fuel, sgl_wf n a (Lagrange lam) -> s_dual a = true -> sgl_objective a x true fuel = Err ValueError.
Proof. exact dual_lagrange_value. Qed.
Print Assumptions C21_dual_lagrange_refuted.

(** ** C22 *)
(** Both searches stop within 35 (21) halvings of the bracket, whatever the point. *)
Theorem C22_terminates : forall b n x fuel, length (s_groups b) = n -> length (s_lasso b) = n -> Forall weight_legal (s_lasso b) -> weights_nonneg (s_groups b) (s_weights b) -> length x = n -> (34 < fuel)%nat ->
  exists e, gauge_function_dual b x fuel = Ok e.
Proof. exact gauge_terminates. Qed.
Print Assumptions C22_terminates.
Theorem C22_strong_terminates : forall (u a : vec) w fuel, (20 < fuel)%nat -> exists e o, gauge_function_dual_strong u a w fuel = Ok (e, o).
Proof. exact strong_terminates. Qed.
Print Assumptions C22_strong_terminates.
(** gauge_function_dual: when P >= r||.||, the value is right up to the relative tolerance 1e-10 and the slack 1e-7 max(||x||,m)/r
    of the membership test; it is 0 or infinity only for norms out of the range 2^-50..2^50. *)
Theorem C22_gauge_partial : forall b n x D r fuel, length (s_groups b) = n -> length (s_lasso b) = n -> Forall weight_legal (s_lasso b) -> weights_nonneg (s_groups b) (s_weights b) ->
  length x = n -> (34 < fuel)%nat -> is_dual_norm n (spen b) x D -> 0 < r -> (forall g, In g (s_groups b) -> r <= group_weight (s_weights b) (s_groups b) g) ->
  exists e, gauge_function_dual b x fuel = Ok e /\
    match e with
    | PInf => 2 ^ 50 < D
    | Fin m => (m = 0 /\ D <= (1 / 2) ^ 50 + / 10 ^ 7 * Rmax (norm x) ((1 / 2) ^ 50) / r) \/
               (0 < m /\ (1 - / 10 ^ 10) * m < D /\ D <= (1 + 2 * / 10 ^ 10) * m + / 10 ^ 7 * Rmax (norm x) ((1 + 2 * / 10 ^ 10) * m) / r)
    end.
Proof.
  intros b n x D r fuel Lg Ll Hl Hw Lx Hf HD Hr Hg. apply (gauge_accurate b n Lg Ll Hl Hw x D r fuel); auto. intros v s Lv Ev.
  apply (radius_ok (s_groups b) (s_lasso b) (group_weight (s_weights b) (s_groups b)) r v s); auto; [congruence|lra].
Qed.
Print Assumptions C22_gauge_partial.
(** The slack can swamp the value, and an infinite dual norm comes back finite. *)
Theorem C22_gauge_refuted : is_dual_norm 1 (spen (tiny (/ 10 ^ 8))) [5 / 10 ^ 8] 5 /\
  forall fuel, (34 < fuel)%nat -> exists m, gauge_function_dual (tiny (/ 10 ^ 8)) [5 / 10 ^ 8] fuel = Ok (Fin m) /\ 0 <= m <= 1.
Proof. exact full_wrong. Qed.
Print Assumptions C22_gauge_refuted.
Theorem C22_infinite_refuted : (forall b, ~ dual_ball 1 (spen (tiny 0)) b [1]) /\
  forall fuel, (34 < fuel)%nat -> exists m, gauge_function_dual (tiny 0) [1] fuel = Ok (Fin m) /\ m <= 3 * 10 ^ 7.
Proof. exact full_infinite_wrong. Qed.
Print Assumptions C22_infinite_refuted.
(** The strong variant is within 1e-6(1+1e-6), relatively, of the dual norm for the group weight w + 1e-5, and returns the matching
    decomposition u = l1 + (multiple of l2). *)
Theorem C22_strong_partial : forall u a w D fuel, length a = length u -> Forall (fun r => 0 <= r) a -> 0 <= w -> (20 < fuel)%nat ->
  is_dual_norm (length u) (one_group a (w + / 10 ^ 5)) u D ->
  exists e o, gauge_function_dual_strong u a w fuel = Ok (e, o) /\
    match e with
    | PInf => 2 ^ 50 < D /\ o = None
    | Fin m => (m = 0 /\ D <= (1 / 2) ^ 50 /\ o = None) \/
        ((1 / 2) ^ 50 < D <= 2 ^ 50 /\ Rabs (m - D) <= / 10 ^ 6 * (1 + / 10 ^ 6) * D /\
         exists l1 l2, o = Some (l1, l2) /\ length l1 = length u /\ (forall v : vec, length v = length u -> dot l1 v <= m * vsum (vmul a (map Rabs v))) /\
           match l2 with None => l1 = u | Some l => length l = length u /\ norm l = w * m /\ vsub u l1 = vscal (norm (vsub u l1) / (w * m)) l \/ w = 0 end)
    end.
Proof. exact strong_accurate. Qed.
Print Assumptions C22_strong_partial.
(** What the inflated weight costs. *)
Theorem C22_strong_weight : forall u a w D D', length a = length u -> Forall (fun r => 0 <= r) a -> 0 < w -> is_dual_norm (length u) (one_group a w) u D ->
  is_dual_norm (length u) (one_group a (w + / 10 ^ 5)) u D' -> D' <= D <= (1 + / 10 ^ 5 / w) * D'.
Proof. exact strong_weight. Qed.
Print Assumptions C22_strong_weight.
Theorem C22_strong_refuted : is_dual_norm 1 (one_group [0] (/ 10 ^ 5)) [1] (10 ^ 5) /\
  forall fuel, (20 < fuel)%nat -> exists m o, gauge_function_dual_strong [1] [0] (/ 10 ^ 5) fuel = Ok (Fin m, o) /\ m < 6 * 10 ^ 4.
Proof. exact strong_wrong. Qed.
Print Assumptions C22_strong_refuted.
(** The dual norm is the largest of the groups' dual norms; the dual's terms() are these, one per group. *)
Theorem C22_blocks : forall labels a w u D (d : Z -> R), length a = length labels -> length u = length labels -> Forall (fun r => 0 <= r) a -> (forall g, In g labels -> 0 <= w g) -> labels <> [] ->
  (forall g, In g labels -> is_dual_norm (length (block labels g u)) (one_group (block labels g a) (w g)) (block labels g u) (d g)) ->
  (is_dual_norm (length labels) (sparse_group labels (map Fin a) w) u D <-> (exists g, In g labels /\ D = d g) /\ forall g, In g labels -> d g <= D).
Proof. exact dual_norm_max. Qed.
Print Assumptions C22_blocks.
Theorem C22_terms_partial : forall labels a given x fuel, length a = length labels -> length x = length labels -> Forall (fun r => 0 <= r) a -> weights_nonneg labels given -> (20 < fuel)%nat ->
  length (sd_terms labels a given x fuel) = length (distinct labels) /\
  forall k, (k < length (distinct labels))%nat -> exists g e D, In g labels /\ nth k (sd_terms labels a given x fuel) (Err OutOfFuel) = Ok e /\
    is_dual_norm (length (block labels g x)) (one_group (block labels g a) (group_weight given labels g + / 10 ^ 5)) (block labels g x) D /\
    match e with PInf => 2 ^ 50 < D | Fin m => m = 0 /\ D <= (1 / 2) ^ 50 \/ Rabs (m - D) <= / 10 ^ 6 * (1 + / 10 ^ 6) * D end.
Proof.
  intros labels a given x fuel La Lx Ha Hw Hf. pose proof (Permutation.Permutation_length (ids_perm labels)) as Lp.
  assert (Ll : length (sd_terms labels a given x fuel) = length (g_ids labels)) by (unfold sd_terms; apply map_length).
  split; [congruence|]. intros k Hk. set (g := nth k (g_ids labels) 0%Z).
  assert (Hg : In g labels).
  { apply (nodup_In Z.eq_dec). eapply Permutation.Permutation_in; [apply ids_perm|]. apply nth_In. congruence. }
  assert (W : 0 <= group_weight given labels g) by auto.
  assert (Lb : length (block labels g a) = length (block labels g x)) by (apply block_length; auto).
  destruct (one_exists (block labels g a) (group_weight given labels g + / 10 ^ 5) (block labels g x)) as (D & HD); auto; [apply block_forall; auto|lra|].
  destruct (strong_accurate (block labels g x) (block labels g a) (group_weight given labels g) D fuel) as (e & o & E & H); auto; [apply block_forall; auto|].
  exists g, e, D. split; auto. split; [|split; auto].
  - rewrite (nth_indep _ _ (rmap fst (gauge_function_dual_strong (zpick 0 labels x) (zpick 0 labels a) (weight_of given labels 0) fuel))) by (unfold vec in *; congruence).
    unfold sd_terms. rewrite (map_nth (fun g => rmap fst (gauge_function_dual_strong (zpick g labels x) (zpick g labels a) (weight_of given labels g) fuel))). fold g.
    rewrite !zpick_block. change (weight_of given labels g) with (group_weight given labels g). rewrite E. auto.
  - destruct e as [m|]; [destruct H as [(H1 & H2 & _)|(_ & H & _)]; auto|tauto].
Qed.
Print Assumptions C22_terms_partial.

(** ** Cases *)
(** The indicator asked for exists: the dual ball is decidable for finite weights. *)
Fixpoint all_dec (f : Z -> bool) (l : list Z) : bool := match l with [] => true | g :: r => f g && all_dec f r end.
Definition ball_indicator (labels : list Z) (a : vec) (w : Z -> R) (b : R) (u : vec) : ext :=
  if all_dec (fun g => if Rle_dec (norm (soft_pos (block labels g a) b (block labels g u))) (b * w g) then true else false) labels then Fin 0 else PInf.
Lemma all_dec_spec : forall f l, all_dec f l = true <-> forall g, In g l -> f g = true.
Proof.
  induction l as [|h l IH]; cbn; [split; auto; tauto|]. rewrite andb_true_iff, IH. split; [intros [H1 H2] g [<-|Hg]; auto|auto].
Qed.
Example C21_indicator : forall labels a w b, length a = length labels -> 0 <= b -> Forall (fun r => 0 <= r) a -> (forall g, In g labels -> 0 <= w g) ->
  indicates (length labels) (dual_ball (length labels) (sparse_group labels (map Fin a) w) b) (ball_indicator labels a w b).
Proof.
  intros labels a w b La Hb Ha Hw u Lu. rewrite (sparse_ball_iff labels a w b u) by auto. unfold ball_indicator.
  destruct (all_dec _ labels) eqn:E; (split; [auto|]); intros H; auto.
  - exfalso. apply H. intros g Hg. rewrite all_dec_spec in E. specialize (E g Hg). cbv beta in E. destruct (Rle_dec _ _); [auto|discriminate].
  - exfalso. assert (K : all_dec (fun g => if Rle_dec (norm (soft_pos (block labels g a) b (block labels g u))) (b * w g) then true else false) labels = true); [|congruence].
    apply all_dec_spec. intros g Hg. destruct (Rle_dec _ _) as [|C]; [auto|exfalso; apply C; auto].
Qed.
Definition sgl_case (dual : bool) (m : smode) : sgl :=
  mk_sgl dual [3%Z; 0%Z; 3%Z] [Fin 1; PInf; Fin 0] (fun g => if Z.eqb g 3 then Some 2 else None) (mk_moded (lag_of m) (bnd_of m) (mk_base 3 (Some [1; 0; 2]) (mk_iq 0 FNone (FVec [1; 1; 0]) 0))).
Example C21_case : forall dual m, mode_ok m -> sgl_wf 3 (sgl_case dual m) m /\ coef (b_quadratic (m_base (s_moded (sgl_case dual m)))) = 0.
Proof.
  intros dual m Hm. split; [|reflexivity]. split; [reflexivity|]. split; [reflexivity|]. split; [repeat constructor; simpl; lra|].
  split; [intros g _; unfold group_weight; cbn [sgl_case s_weights]; destruct (Z.eqb g 3); [lra|apply sqrt_pos]|].
  split; [reflexivity|]. split; [reflexivity|]. split; [auto|]. split; [reflexivity|]. split; [|cbn; repeat split; auto].
  intros o E. injection E as <-. split; auto. intros C. injection C. lra.
Qed.
Example C21_case_legal : no_zero_inf (sgl_case false (Lagrange 2)) 2.
Proof. left. lra. Qed.
(** Dual norms exist for positive group weights *)
Example C22_case : forall labels a w u, length a = length labels -> length u = length labels -> labels <> [] -> Forall (fun r => 0 <= r) a -> (forall g, In g labels -> 0 < w g) ->
  exists D, is_dual_norm (length labels) (sparse_group labels (map Fin a) w) u D.
Proof.
  intros labels a w u La Lu Hne Ha Hw.
  assert (M : forall l, (forall g, In g l -> In g labels) -> exists b, 0 <= b /\ forall g, In g l -> dual_ball (length (block labels g u)) (one_group (block labels g a) (w g)) b (block labels g u)).
  { induction l as [|h l IH]; intros Hl; [exists 0; split; [lra|intros g []]|]. destruct IH as (b & Hb & B); [intros; apply Hl; right; auto|].
    assert (Hh : In h labels) by (apply Hl; left; auto).
    destruct (one_exists (block labels h a) (w h) (block labels h u)) as (t & Ht & Bt & _); auto; [apply block_length; auto|apply block_forall; auto|].
    exists (Rmax b t). split; [pose proof (Rmax_l b t); lra|]. intros g [<-|Hg].
    - eapply ball_mono; [|apply Rmax_r|exact Bt]. intros v s Lv Ev. eapply one_nonneg; [| |exact Lv|exact Ev]; [apply block_forall; auto|left; auto].
    - eapply ball_mono; [|apply Rmax_l|apply B; auto]. intros v s Lv Ev. eapply one_nonneg; [| |exact Lv|exact Ev]; [apply block_forall; auto|left; apply Hw; apply Hl; right; auto]. }
  destruct (M labels ltac:(auto)) as (b & Hb & B). apply (dual_norm_exists _ _ u b); auto; [|apply ball_split; auto].
  intros v s Lv Ev. rewrite sparse_group_split in Ev by auto. injection Ev as <-. apply P_slope.vsum_nonneg. apply Forall_map, Forall_forall. intros g Hg. pose proof (proj1 (nodup_In Z.eq_dec labels g) Hg) as Hg0.
  eapply one_nonneg; [apply (block_forall (fun r => 0 <= r) labels g a Ha)|left; apply Hw; exact Hg0|reflexivity|apply one_group_value].
Qed.
