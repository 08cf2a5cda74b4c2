(** Sparse group block paths: the strong set, the ranks, and where the check goes wrong. *)
From Coq Require Import Reals List Lra Lia Psatz Bool ZArith Permutation Sorted.
From Verif Require P_mpath3 P_sgl7.
From Verif Require Import M_affine Vec Spec SpecAtom SpecConvex M_quad M_prox M_semi SpecPart SpecGroup M_mixed M_weighted M_group SpecSgl M_sgl SpecBlock M_block SpecSgb M_sgb P_quad P_prox P_calc P_part P_weighted P_gauge P_group P_group2 P_sgl P_search P_sgl2 P_sgl3 P_sgl5
  M_loss SpecLoss SpecSmooth P_smooth P_fista M_path SpecPath M_gpath SpecGpath SpecSgpath P_path P_gpath P_gpath3 P_sgpath P_sgpath2 P_sgpath3 P_sgpath4 P_sgpath5 P_sgpath6 M_sbpath SpecSbpath P_cones P_block P_sgb P_sbpath.
Import ListNotations.
Local Open Scope R_scope.

(** ** sorting exists *)
Definition eleb (a b : ext) : bool := match a, b with _, PInf => true | PInf, _ => false | Fin x, Fin y => if Rle_dec x y then true else false end.
Lemma eleb_true : forall a b, eleb a b = true -> ext_le a b.
Proof. intros [a|] [b|]; cbn; auto; try discriminate. destruct (Rle_dec a b); auto; discriminate. Qed.
Lemma eleb_false : forall a b, eleb a b = false -> ext_le b a.
Proof. intros [a|] [b|]; cbn; auto; try discriminate. destruct (Rle_dec a b); [discriminate|intros _; lra]. Qed.
Lemma ele_trans : forall a b c, ext_le a b -> ext_le b c -> ext_le a c.
Proof. intros [a|] [b|] [c|]; cbn; auto; try tauto. intros; lra. Qed.
Fixpoint place (l : list ext) (i : nat) (idx : list nat) : list nat :=
  match idx with [] => [i] | j :: idx' => if eleb (nth i l (Fin 0)) (nth j l (Fin 0)) then i :: j :: idx' else j :: place l i idx' end.
Definition argsort (l : list ext) : list nat := fold_right (place l) [] (seq 0 (length l)).
Lemma place_perm : forall l i idx, Permutation (place l i idx) (i :: idx).
Proof. induction idx as [|j idx IH]; cbn [place]; auto. destruct (eleb _ _); auto. eapply perm_trans; [apply perm_skip, IH|apply perm_swap]. Qed.
Lemma place_sorted : forall l i idx, StronglySorted (fun a b => ext_le (nth a l (Fin 0)) (nth b l (Fin 0))) idx -> StronglySorted (fun a b => ext_le (nth a l (Fin 0)) (nth b l (Fin 0))) (place l i idx).
Proof.
  intros l i. induction idx as [|j idx IH]; intros H; cbn [place]; [repeat constructor|]. inversion H as [|? ? H1 H2]; subst. destruct (eleb _ _) eqn:E.
  - apply eleb_true in E. constructor; auto. constructor; auto. apply Forall_impl with (2 := H2). intros a Ha. eapply ele_trans; eauto.
  - apply eleb_false in E. constructor; auto. apply Permutation_Forall with (1 := Permutation_sym (place_perm l i idx)). constructor; auto.
Qed.
Lemma sorted_nth : forall (R : nat -> nat -> Prop) l i j, (forall a, R a a) -> StronglySorted R l -> (i <= j < length l)%nat -> R (nth i l 0%nat) (nth j l 0%nat).
Proof.
  intros R. induction l as [|x l IH]; intros i j Rf H L; [simpl in L; lia|]. inversion H as [|? ? H1 H2]; subst. destruct i as [|i], j as [|j]; cbn [nth]; auto; [|lia|apply IH; auto; simpl in L; lia]. rewrite Forall_forall in H2. apply H2, nth_In. simpl in L. lia.
Qed.
Lemma argsort_sorts : sorts argsort.
Proof.
  intros l. assert (P : Permutation (argsort l) (seq 0 (length l))). { unfold argsort. generalize (seq 0 (length l)). induction l0 as [|i idx IH]; cbn [fold_right]; auto. eapply perm_trans; [apply place_perm|]. auto. }
  split; auto. intros i j Hij. assert (S : StronglySorted (fun a b => ext_le (nth a l (Fin 0)) (nth b l (Fin 0))) (argsort l)). { unfold argsort. generalize (seq 0 (length l)). induction l0 as [|k idx IH]; cbn [fold_right]; [constructor|]. apply place_sorted, IH. }
  apply (sorted_nth (fun a b => ext_le (nth a l (Fin 0)) (nth b l (Fin 0)))); auto; [intros a; destruct (nth a l (Fin 0)); cbn; auto; lra|]. rewrite (Permutation_length P), seq_length. exact Hij.
Qed.
(** ** ranks *)
Theorem ranks_sign : forall order terms tol j, sorts order -> (j < length terms)%nat -> (0 <= nth j (sb_ranks order terms tol) 0 <-> forall a, nth j terms (Fin 0) = Fin a -> 1 + tol < a).
Proof.
  intros order terms tol j So Hj. unfold sb_ranks. set (F := fun k : nat => _). rewrite (nth_indep _ 0 (F 0%nat)) by (rewrite map_length, seq_length; auto). rewrite (map_nth F), seq_nth by auto. cbn [Nat.add]. unfold F. assert (B := lt_INR _ _ (order_below order terms j So Hj)). destruct (nth j terms (Fin 0)) as [a|].
  - destruct (Rle_dec a (1 + tol)); split; intros H; try lra; [specialize (H a eq_refl); lra|intros b E; injection E as <-; lra].
  - split; [discriminate|intros _; lra].
Qed.
Theorem ranks_not_monotone : forall order tol, sorts order -> 0 <= tol < 1 -> sb_ranks order [Fin 4; Fin 2; Fin 3] tol = [2; 1; 3].
Proof.
  intros order tol So Ht. destruct (So [Fin 4; Fin 2; Fin 3]) as (P & S). cbn [length seq] in P, S. assert (L := Permutation_length P). cbn [length] in L. unfold sb_ranks. destruct (order [Fin 4; Fin 2; Fin 3]) as [|a [|b [|c [|]]]]; try discriminate. cbn [length seq map nth].
  assert (Ia := Permutation_in _ P (or_introl eq_refl)). assert (Ib := Permutation_in _ P (or_intror (or_introl eq_refl))). assert (Ic := Permutation_in _ P (or_intror (or_intror (or_introl eq_refl)))). assert (N : NoDup [a; b; c]) by (apply (Permutation_NoDup (Permutation_sym P)); repeat constructor; cbn; intuition lia).
  assert (Sab := S 0%nat 1%nat ltac:(lia)). assert (Sbc := S 1%nat 2%nat ltac:(lia)). cbn [nth] in Sab, Sbc. clear S P L.
  assert (Nab : a <> b) by (inversion N; subst; cbn in *; intuition). assert (Nbc : b <> c) by (inversion N as [|? ? _ N']; inversion N'; subst; cbn in *; intuition). clear N.
  destruct (Rle_dec 4 (1 + tol)); [lra|]. destruct (Rle_dec 2 (1 + tol)); [lra|]. destruct (Rle_dec 3 (1 + tol)); [lra|].
  destruct Ia as [<-|[<-|[<-|[]]]], Ib as [<-|[<-|[<-|[]]]], Ic as [<-|[<-|[<-|[]]]]; try congruence; cbn [nth ext_le] in Sab, Sbc; try lra; simpl; repeat f_equal; ring.
Qed.
(** ** the strong set *)
Theorem sb_strong_meaning : forall r c l1 l2 grad lcur lnew i, length grad = (r * c)%nat -> 0 <= l1 -> 0 <= l2 -> (i < r)%nat -> let row := nth i (rows r c grad) [] in
  nth i (sb_strong r c l1 l2 grad lcur lnew) false = true <-> 2 * lnew - lcur < 0 \/ ~ dual_ball c (one_group (repeat l1 c) (l2 + / 10 ^ 5)) (2 * lnew - lcur) row.
Proof.
  intros r c l1 l2 grad lcur lnew i Lg H1 H2 Hi row. unfold sb_strong. set (F := fun x : vec => _). assert (Hr : (i < length (rows r c grad))%nat) by (rewrite rows_length; auto). rewrite (nth_indep _ false (F [])) by (rewrite map_length; auto). rewrite (map_nth F). fold row. unfold F. replace ((1 + 1) * lnew - 1 * lcur) with (2 * lnew - lcur) by ring.
  assert (Lr : length row = c). { assert (Fr := rows_lengths r c grad Lg). rewrite Forall_forall in Fr. apply Fr, nth_In; auto. } assert (Ha := repeat_forall (fun a => 0 <= a) l1 c H1).
  unfold inside_set_strong. set (b := 2 * lnew - lcur) in *. clearbody b. assert (N := norm_nonneg (soft_pos (repeat l1 c) b row)).
  destruct (Rlt_dec b 0) as [Nb|Pb].
  - destruct (Rle_dec _ _) as [H|H]; cbn [negb]; [exfalso; nra|]. tauto.
  - rewrite <- Lr at 2. rewrite one_ball_iff by (try (rewrite repeat_length; auto); auto; lra). destruct (Rle_dec _ _) as [H|H]; cbn [negb]; split; try tauto; try discriminate.
Qed.
(** ** squared distances *)
Lemma half_dist_gradient : forall y x, length x = length y -> is_gradient (length y) (half_dist y) x (vsub x y).
Proof.
  intros y x L. split; [vlen|]. intros d Ld. apply (P_mpath3.poly_lim _ (/ 2 * sqn (vsub x y)) _ (/ 2 * sqn d)). intros t. unfold half_dist.
  replace (vsub (vadd x (vscal t d)) y) with (vadd (vsub x y) (vscal t d)).
  - rewrite sqn_add by vlen. rewrite sqn_scal, dot_scal_r. field.
  - revert x d L Ld. induction y as [|b y IH]; intros [|a x] [|e d] L Ld; try discriminate; auto. unfold vadd, vsub, vscal in *. cbn [map vzip]. rewrite <- IH by (simpl in *; congruence). f_equal. ring.
Qed.
Lemma half_dist_convex : forall y, convex_on (length y) (half_dist y).
Proof.
  intros y a b t La Lb Ht. unfold half_dist. enough (sqn (vsub (between a b t) y) <= (1 - t) * sqn (vsub a y) + t * sqn (vsub b y)) by lra.
  revert a b La Lb. induction y as [|c y IH]; intros [|a x] [|b z] La Lb; try discriminate; [unfold sqn, dot, vsum; simpl; lra|]. specialize (IH x z ltac:(simpl in *; congruence) ltac:(simpl in *; congruence)). unfold between, vadd, vsub, vscal in *. cbn [map vzip] in *. rewrite !sqn_cons.
  assert (0 <= t * (1 - t) * ((a - b) * (a - b))) by (apply Rmult_le_pos; [apply Rmult_le_pos; lra|apply Rle_0_sqr]). lra.
Qed.
(** ** a row that is not at zero and has no gradient *)
Theorem sb_flat_raises : forall order r c l1 l2 grad s lam tol fuel x q, 0 <= l1 -> 0 <= l2 -> (20 < fuel)%nat -> length s = (r * c)%nat -> In (zeros c, x) (combine (rows r c grad) (rows r c s)) -> tol * Rmax (vsum (map norm (rows r c s))) 1 < norm x ->
  sb_row_check l1 l2 (vsum (map norm (rows r c s))) lam tol fuel (zeros c, x) = Err TypeError /\ sb_check order r c l1 l2 grad s lam tol fuel <> Ok q.
Proof.
  intros order r c l1 l2 grad s lam tol fuel x q H1 H2 Hf Ls Hi A.
  assert (Lx : length x = c). { assert (Fr := rows_lengths r c s Ls). rewrite Forall_forall in Fr. apply Fr. apply in_combine_r in Hi. auto. }
  assert (E : sb_row_check l1 l2 (vsum (map norm (rows r c s))) lam tol fuel (zeros c, x) = Err TypeError).
  { unfold sb_row_check. replace (gtb (norm x) _) with true by (symmetry; apply gtb_true; exact A). rewrite vopp_zeros, Lx. unfold sg_active_check. assert (Ha := repeat_forall (fun a => 0 <= a) l1 c H1).
    destruct (strong_accurate (zeros c) (repeat l1 c) l2 0 fuel) as (e & o & E & H); auto; [rewrite repeat_length, zeros_length; auto|rewrite zeros_length; apply dual_norm_zero; auto; lra|].
    rewrite E. cbn [rbind]. assert (o = None). { destruct e as [m|]; [destruct H as [(_ & _ & H)|((H & _) & _)]; auto; exfalso; assert (0 < (1 / 2) ^ 50) by (apply pow_lt; lra); lra|tauto]. } subst o. reflexivity. }
  split; auto. intros H. unfold sb_check in H. destruct (rall _ _) as [rs|e] eqn:Er; [|discriminate]. revert Er. apply (rall_err _ _ rs (zeros c, x) TypeError); auto.
Qed.
(** ** one entry *)
Lemma active_lone : forall c w x lam tol fuel, 0 < c -> 0 < w -> / 10 ^ 6 < w -> 0 < x -> 0 <= tol -> (20 < fuel)%nat -> (1 / 2) ^ 50 < c / (w + / 10 ^ 5) <= 2 ^ 50 ->
  exists m, Rabs (m - c / (w + / 10 ^ 5)) <= / 10 ^ 6 * (1 + / 10 ^ 6) * (c / (w + / 10 ^ 5)) /\ sg_active_check [c] [0] w [x] lam tol fuel = Ok (gtb (lam * (1 - tol)) m).
Proof.
  intros c w x lam tol fuel Hc Hw Hw' Hx Ht Hf HD. destruct (one_active c w x lam tol fuel) as (m & B & E); auto. exists m. split; auto. unfold sg_check in E. rewrite (eq_refl : g_ids [1%Z] = [1%Z]) in E. cbn [rall] in E. unfold sg_one in E. rewrite !zpick_block in E. unfold block in E. cbn [pick Z.eqb Pos.eqb combine filter map fst snd] in E. unfold weight_of, lone in E.
  assert (Ex : norm [x] = x) by (rewrite P_sgl7.norm1, Rabs_pos_eq; lra). replace (gtb (norm [x] * w + vsum (vabs (vmul [x] [0]))) (/ 10 ^ 6 * norm [x])) with true in E.
  2:{ symmetry. apply gtb_true. rewrite Ex. replace (vsum (vabs (vmul [x] [0]))) with 0; [nra|]. unfold vsum, vabs, vmul. cbn [vzip map fold_right]. rewrite Rmult_0_r, Rabs_R0. ring. }
  cbn [vopp map] in E. rewrite Ropp_involutive in E. destruct (sg_active_check [c] [0] w [x] lam tol fuel) as [b|]; [|discriminate]. cbn in E. apply Ok_inj in E. injection E as E. rewrite E. reflexivity.
Qed.
Lemma one_entry : forall order l1 l2 g x lam tol fuel, tol * Rmax (norm [x]) 1 < norm [x] -> 0 <= tol ->
  sb_check order 1 1 l1 l2 [g] [x] lam tol fuel = rmap (fun b => ([b], [-1])) (sg_active_check [- g] [l1] l2 [x] lam tol fuel).
Proof.
  intros order l1 l2 g x lam tol fuel A Ht. unfold sb_check. cbn [rows firstn skipn combine map rall]. unfold sb_row_check. cbn [length repeat]. unfold vsum. cbn [fold_right]. rewrite Rplus_0_r. replace (gtb (norm [x]) _) with true by (symmetry; apply gtb_true; exact A). cbn [vopp map].
  destruct (sg_active_check [- g] [l1] l2 [x] lam tol fuel) as [b|]; auto. cbn [rmap rbind map fst snd]. unfold sb_ranks. cbn [length seq map nth]. destruct (Rle_dec 0 (1 + tol)); [reflexivity|lra].
Qed.
Lemma one_block : forall l1 l2 x, block_pen 1 1 l1 l2 [x] = l1 * Rabs x + l2 * Rabs x.
Proof. intros. unfold block_pen. cbn [rows firstn skipn map]. rewrite ell2_norm, P_sgl7.norm1. unfold ell1, vsum. cbn. ring. Qed.
Theorem sb_sound_wrong : forall order fuel, (20 < fuel)%nat -> exists q, sb_check order 1 1 0 1 [-100] [1] 1 kkt_tol fuel = Ok q /\ passes q /\ is_gradient 1 (half_dist [101]) [1] [-100] /\
  half_dist [101] [100] + 1 * block_pen 1 1 0 1 [100] < half_dist [101] [1] + 1 * block_pen 1 1 0 1 [1] - 4900.
Proof.
  intros order fuel Hf. assert (Kt : 0 <= kkt_tol < 1 / 2) by (unfold kkt_tol; lra). destruct (active_lone 100 1 1 1 kkt_tol fuel) as (m & B & E); auto; try lra.
  assert (N1 : norm [1] = 1) by (rewrite P_sgl7.norm1; apply Rabs_pos_eq; lra). eexists. split; [rewrite one_entry by (try lra; rewrite N1, Rmax_left; lra); replace (- (-100)) with 100 by lra; rewrite E; reflexivity|]. split; [|split].
  - split; cbn [fst snd]; repeat constructor; [|lra]. apply gtb_false. assert (9 <= m); [|lra]. revert B. unfold Rabs. destruct (Rcase_abs _); lra.
  - replace [-100] with (vsub [1] [101]) by (unfold vsub; cbn [vzip]; f_equal; ring). apply (half_dist_gradient [101] [1] eq_refl).
  - rewrite !one_block. unfold half_dist. cbn [vsub vzip]. unfold sqn, dot, vsum. cbn [vmul vzip fold_right]. rewrite !Rabs_pos_eq by lra. lra.
Qed.
Theorem sb_complete_wrong : forall order fuel, (20 < fuel)%nat -> let y := 1 + 2 / 10 ^ 6 in let w := 2 / 10 ^ 6 in
  exists q, sb_check order 1 1 0 w [- w] [1] 1 kkt_tol fuel = Ok q /\ ~ passes q /\ is_gradient 1 (half_dist [y]) [1] [- w] /\
  forall v, length v = 1%nat -> half_dist [y] [1] + 1 * block_pen 1 1 0 w [1] <= half_dist [y] v + 1 * block_pen 1 1 0 w v.
Proof.
  intros order fuel Hf y w. assert (Kt : 0 <= kkt_tol < 1 / 2) by (unfold kkt_tol; lra). destruct (active_lone w w 1 1 kkt_tol fuel) as (m & B & E); auto; unfold w in *; try lra.
  assert (N1 : norm [1] = 1) by (rewrite P_sgl7.norm1; apply Rabs_pos_eq; lra). eexists. split; [rewrite one_entry by (try lra; rewrite N1, Rmax_left; lra); rewrite Ropp_involutive, E; reflexivity|]. split; [|split].
  - intros (P & _). cbn [fst] in P. apply Forall_inv in P. apply gtb_false in P. assert (m <= 1 / 4); [|lra]. revert B. unfold Rabs. destruct (Rcase_abs _); lra.
  - replace [- (2 / 10 ^ 6)] with (vsub [1] [y]) by (unfold vsub, y; cbn [vzip]; f_equal; ring). apply (half_dist_gradient [y] [1] eq_refl).
  - intros [|v [|]] Lv; try discriminate. rewrite !one_block. unfold half_dist. cbn [vsub vzip]. unfold sqn, dot, vsum. cbn [vmul vzip fold_right]. assert (A := Rle_abs v). rewrite (Rabs_pos_eq 1) by lra. unfold y. assert (0 <= (v - 1) * (v - 1)) by apply Rle_0_sqr. clear - A H. lra.
Qed.
(** ** small rows are tested as if they were zero *)
Theorem sb_small_wrong : forall order lam fuel, sorts order -> (20 < fuel)%nat -> 1 <= lam <= 800 -> let y := [102 * lam; lam] in let s := [100 * lam; lam] in let v := [100 * lam; 0] in
  exists q, sb_check order 2 1 1 1 (vsub s y) s lam kkt_tol fuel = Ok q /\ passes q /\ is_gradient 2 (half_dist y) s (vsub s y) /\ convex_on 2 (half_dist y) /\
  half_dist y v + lam * block_pen 2 1 1 1 v + 3 / 2 * (lam * lam) <= half_dist y s + lam * block_pen 2 1 1 1 s.
Proof.
  intros order lam fuel So Hf Hl y s v. 
  assert (K : exists q, sb_check order 2 1 1 1 (vsub s y) s lam kkt_tol fuel = Ok q /\ passes q).
  { apply sb_passes_iff; auto. unfold vsub, s, y. cbn [vzip rows firstn skipn combine map]. rewrite !P_sgl7.norm1, !Rabs_pos_eq by lra. unfold vsum. cbn [fold_right]. intros p [<-|[<-|[]]]; unfold row_ok, sb_row_check; cbn [length repeat]; rewrite P_sgl7.norm1, Rabs_pos_eq by lra; rewrite Rmax_left by lra.
    - replace (gtb (100 * lam) (kkt_tol * (100 * lam + (lam + 0)))) with true by (symmetry; apply gtb_true; unfold kkt_tol; lra). rewrite (active_complete [1] 1 (vopp [100 * lam - 102 * lam]) [100 * lam] lam kkt_tol fuel); auto.
      + eexists. split; [reflexivity|]. split; auto. exists 0. split; auto. unfold kkt_tol. lra.
      + repeat constructor. lra.
      + assert ((1 / 2) ^ 49 <= 1) by (rewrite <- (pow1 49); apply pow_incr; lra). assert (2 ^ 10 <= 2 ^ 50) by (apply Rle_pow; [lra|lia]). lra.
      + unfold kkt_tol; lra.
      + rewrite P_sgl7.norm1, Rabs_pos_eq; lra.
      + unfold resolved, resolution, kkt_tol. rewrite P_sgl7.norm1, Rabs_pos_eq by lra. lra.
      + intros [|z [|]] Lz; try discriminate. unfold vopp, vsub, group_pen, dot, vsum. cbn [map vzip vmul fold_right]. rewrite !P_sgl7.norm1, !(Rabs_pos_eq (100 * lam)) by lra. assert (A := Rle_abs z). nra.
    - replace (gtb lam (kkt_tol * (100 * lam + (lam + 0)))) with false by (symmetry; apply gtb_false; unfold kkt_tol; lra). destruct (inactive_complete [1] 1 (vopp [lam - lam]) lam fuel) as (m & o & E & Hm); auto; try lra.
      + repeat constructor. lra.
      + intros z q Lz Eq. destruct z as [|z [|]]; try discriminate. rewrite one_group_value in Eq. injection Eq as <-. unfold vopp, dot, vsum. cbn [map vmul vzip fold_right]. replace (- (lam - lam) * z + 0) with 0 by ring. unfold one_value. assert (N := norm_nonneg [z]). unfold vsum, vmul. cbn [map vzip fold_right]. assert (N' := Rabs_pos z). nra.
      + rewrite E. cbn [rmap fst]. eexists. split; [reflexivity|]. split; auto. exists (m / lam). split; auto. unfold kkt_tol. lra. }
  destruct K as (q & E & P). exists q. split; auto. split; auto. split; [apply (half_dist_gradient y s eq_refl)|]. split; [apply (half_dist_convex y)|].
  unfold half_dist, block_pen, v, s, y. cbn [rows firstn skipn map vsub vzip]. rewrite !ell2_norm, !P_sgl7.norm1. unfold ell1, sqn, dot, vsum. cbn [map vmul vzip fold_right]. rewrite Rabs_R0, !Rabs_pos_eq by lra. nra.
Qed.
