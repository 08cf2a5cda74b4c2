(** Soundness of the optimality check of the mixed lasso, and the counterexamples. *)
From Coq Require Import Reals List Lra Lia Psatz Bool Permutation ZArith.
From Verif Require Import M_loss Vec Spec SpecConvex SpecFista M_quad M_prox M_semi SpecAtom M_shift SpecBase SpecMode M_mode SpecModed SpecWeighted SpecPart SpecGroup M_slope M_mixed M_group M_mixed_atom SpecGatom M_mkkt SpecMkkt
  P_quad P_pl P_prox P_feas P_semi P_conj P_shift P_gauge P_part P_mixed P_kinds P_group P_group2 P_calc P_problem P_fista P_sep P_mkkt.
Import ListNotations.
Local Open Scope R_scope.

Lemma pick_inv : forall {A} (f : A -> bool) l (g s : vec) d p, length g = length l -> length s = length l -> (p < length (pick f l g))%nat ->
  exists i, (i < length l)%nat /\ f (nth i l d) = true /\ nth p (pick f l g) 0 = nth i g 0 /\ nth p (pick f l s) 0 = nth i s 0.
Proof.
  induction l as [|c l IH]; intros [|x g] [|y s] d p Lg Ls Hp; simpl in Lg, Ls; try discriminate; [simpl in Hp; lia|]. cbn [pick] in *. destruct (f c) eqn:Ef.
  - destruct p as [|p]; [exists 0%nat; simpl; auto with arith|]. cbn [length nth] in Hp. destruct (IH g s d p) as (i & Hi & A1 & A2 & A3); try lia. exists (S i). cbn [length nth]. split; [lia|auto].
  - destruct (IH g s d p) as (i & Hi & A1 & A2 & A3); try lia. exists (S i). cbn [length nth]. split; [lia|auto].
Qed.
Lemma block_inv : forall labels l (g s : vec) p, length g = length labels -> length s = length labels -> (p < length (block labels l g))%nat ->
  exists i, (i < length labels)%nat /\ nth i labels 0%Z = l /\ nth p (block labels l g) 0 = nth i g 0 /\ nth p (block labels l s) 0 = nth i s 0.
Proof. intros labels l g s p Lg Ls Hp. destruct (pick_inv (Z.eqb l) labels g s 0%Z p Lg Ls Hp) as (i & Hi & E & A). exists i. apply Z.eqb_eq in E. auto. Qed.
Lemma sep_lower : forall (k : R -> R) c (g v : vec), length g = length v -> (forall p, (p < length v)%nat -> 0 <= nth p g 0 * nth p v 0 + c * k (nth p v 0)) -> 0 <= dot g v + c * vsum (map k v).
Proof.
  intros k c. induction g as [|a g IH]; intros [|b v] L H; try discriminate; [cbn; unfold dot; cbn; lra|]. cbn [map]. rewrite dot_cons, vsum_cons. assert (H0 := H 0%nat ltac:(simpl; lia)). cbn [nth] in H0.
  specialize (IH v ltac:(simpl in L; lia) ltac:(intros p Hp; apply (H (S p)); simpl; lia)). nra.
Qed.
Lemma sep_upper : forall (k : R -> R) c (g v : vec), length g = length v -> (forall p, (p < length v)%nat -> nth p g 0 * nth p v 0 + c * k (nth p v 0) <= 0) -> dot g v + c * vsum (map k v) <= 0.
Proof.
  intros k c. induction g as [|a g IH]; intros [|b v] L H; try discriminate; [cbn; unfold dot; cbn; lra|]. cbn [map]. rewrite dot_cons, vsum_cons. assert (H0 := H 0%nat ltac:(simpl; lia)). cbn [nth] in H0.
  specialize (IH v ltac:(simpl in L; lia) ltac:(intros p Hp; apply (H (S p)); simpl; lia)). nra.
Qed.
Lemma abs_mult_low : forall a b m, Rabs a <= m -> 0 <= a * b + m * Rabs b.
Proof. intros a b m H. assert (- (Rabs a * Rabs b) <= a * b). { rewrite <- Rabs_mult. assert (X := Rle_abs (- (a * b))). rewrite Rabs_Ropp in X. lra. } assert (P := Rabs_pos b). nra. Qed.

Section Sound.
Variables (labels : list Z) (given : Z -> option R).
Hypothesis Hw : weights_ok labels given.
Let w := group_weight given labels.
Let n := length labels.
Let ids := mixed_groups labels.
Let En : enumerates ids labels := Permutation_refl _.
Variables (lam tol : R) (g s : vec).
Hypothesis Hl : 0 < lam.
Hypothesis Lg : length g = n.
Hypothesis Ls : length s = n.
Hypothesis NR : forall i, (i < n)%nat -> ~ reported labels w g s lam tol i.

Lemma nr_l1 : forall p, (p < length (block labels (-2) g))%nat -> Rabs (nth p (block labels (-2) g) 0) <= lam * (1 + tol) /\
  nth p (block labels (-2) g) 0 * nth p (block labels (-2) s) 0 + lam * (1 - tol) * Rabs (nth p (block labels (-2) s) 0) <= 0.
Proof.
  intros p Hp. destruct (block_inv labels (-2) g s p Lg Ls Hp) as (i & Hi & E & -> & ->). assert (C := NR i Hi). unfold reported in C. rewrite E in C.
  destruct (Rle_dec (Rabs (nth i g 0)) (lam * (1 + tol))) as [A|A]; [|exfalso; apply C; left; split; auto; left; lra]. split; auto.
  destruct (Req_EM_T (nth i s 0) 0) as [Z|Z]; [rewrite Z, Rabs_R0; lra|]. destruct (Rlt_dec (Rabs (nth i g 0 / lam + sign (nth i s 0))) tol) as [B|B]; [|exfalso; apply C; left; split; auto; right; split; auto; lra].
  set (a := nth i g 0) in *. set (b := nth i s 0) in *. apply Rabs_def2 in B. destruct B as (B1 & B2). assert (Ea : a = lam * (a / lam)) by (field; lra). set (t := a / lam) in *. unfold sign in *.
  destruct (Rlt_dec b 0) as [Nb|Nb]; [rewrite Rabs_left by auto|destruct (Rlt_dec 0 b) as [Pb|Pb]; [rewrite Rabs_right by lra|lra]]; rewrite Ea.
  - assert (0 < lam * (t - 1 + tol)) by (apply Rmult_lt_0_compat; lra). nra.
  - assert (0 < lam * (tol - 1 - t)) by (apply Rmult_lt_0_compat; lra). nra.
Qed.
Lemma nr_pos : forall p, (p < length (block labels (-3) g))%nat -> - nth p (block labels (-3) g) 0 <= lam * (1 + tol) /\
  (0 <= nth p (block labels (-3) s) 0 -> nth p (block labels (-3) g) 0 * nth p (block labels (-3) s) 0 + lam * (1 - tol) * nth p (block labels (-3) s) 0 <= 0).
Proof.
  intros p Hp. destruct (block_inv labels (-3) g s p Lg Ls Hp) as (i & Hi & E & -> & ->). assert (C := NR i Hi). unfold reported in C. rewrite E in C.
  destruct (Rle_dec (- (nth i g 0)) (lam * (1 + tol))) as [A|A]; [|exfalso; apply C; right; left; split; auto; left; lra]. split; auto. intros P.
  destruct (Req_EM_T (nth i s 0) 0) as [Z|Z]; [rewrite Z; lra|]. destruct (Rlt_dec (Rabs (nth i g 0 / lam + 1)) tol) as [B|B]; [|exfalso; apply C; right; left; split; auto; right; split; auto; lra].
  set (a := nth i g 0) in *. set (b := nth i s 0) in *. apply Rabs_def2 in B. destruct B as (B1 & B2). assert (Ea : a = lam * (a / lam)) by (field; lra). set (t := a / lam) in *. rewrite Ea. assert (lam * t + lam * (1 - tol) < 0) by nra. nra.
Qed.
Lemma nr_nn : forall p, (p < length (block labels (-4) g))%nat -> - nth p (block labels (-4) g) 0 <= lam * tol /\
  (0 <= nth p (block labels (-4) s) 0 -> nth p (block labels (-4) g) 0 * nth p (block labels (-4) s) 0 + - / 100 * nth p (block labels (-4) s) 0 <= 0).
Proof.
  intros p Hp. destruct (block_inv labels (-4) g s p Lg Ls Hp) as (i & Hi & E & -> & ->). assert (C := NR i Hi). unfold reported in C. rewrite E in C.
  destruct (Rle_dec (- (nth i g 0)) (lam * tol)) as [A|A]; [|exfalso; apply C; right; right; left; split; auto; left; lra]. split; auto. intros P.
  destruct (Req_EM_T (nth i s 0) 0) as [Z|Z]; [rewrite Z; lra|]. destruct (Rle_dec (nth i g 0) (/ 100)) as [B|B]; [nra|exfalso; apply C; right; right; left; split; auto; right; split; auto; lra].
Qed.
Lemma nr_group : forall l, In l labels -> reserved l = false -> norm (block labels l g) <= w l * lam * (1 + tol) /\ (norm (block labels l s) <> 0 -> w l * lam * (1 - tol) <= norm (block labels l g)).
Proof.
  intros l Hin Hr. destruct (In_nth labels l 0%Z Hin) as (i & Hi & E). assert (C := NR i Hi). unfold reported in C. rewrite E in C.
  destruct (Rle_dec (norm (block labels l g)) (w l * lam * (1 + tol))) as [A|A]; [|exfalso; apply C; right; right; right; split; auto; left; lra]. split; auto.
  intros Z. destruct (Rle_dec (w l * lam * (1 - tol)) (norm (block labels l g))) as [B|B]; auto. exfalso. apply C. right. right. right. split; auto. right. split; auto. lra.
Qed.
(** the classes *)
Let warr := ml_warr labels ids given.
Let q := length warr.
Let Eq : q = length ids. Proof. unfold q, warr, ml_warr. apply map_length. Qed.
Let a := map (kidx q) (ml_kinds labels ids).
Lemma class_cases : forall k, (k < q + 4)%nat -> (k < q /\ exists l, In l labels /\ reserved l = false /\ hk q warr k = group_term (w l) /\ forall x, cls a k x = block labels l x)%nat \/
  (k = q /\ hk q warr k = doc_seminorm CL1 /\ forall x, cls a k x = block labels (-2) x) \/
  (k = (q + 1)%nat /\ hk q warr k = free /\ forall x, cls a k x = block labels (-1) x) \/
  (k = (q + 2)%nat /\ hk q warr k = doc_seminorm CConPosPart /\ forall x, cls a k x = block labels (-3) x) \/
  (k = (q + 3)%nat /\ hk q warr k = nn_ind /\ forall x, cls a k x = block labels (-4) x).
Proof.
  intros k Hk. destruct (Nat.lt_ge_cases k q) as [Lk|Lk].
  - left. split; auto. exists (nth k ids 0%Z). assert (I : In (nth k ids 0%Z) ids) by (apply nth_In; lia). assert (J := I). unfold ids in J. unfold mixed_groups, distinct in J. apply nodup_In, filter_In in J. destruct J as (J & J').
    split; auto. split. { destruct (reserved _) in *; [discriminate|auto]. } split.
    + unfold hk. change k with (kidx q (MGroup k)) at 1. rewrite kof_kidx by (simpl; auto). unfold warr, ml_warr. rewrite (nth_map_R' _ _ _ 0%Z 0) by lia. reflexivity.
    + intros x. apply (ml_cls_group labels ids En q); auto.
  - right. assert (k = q \/ k = q + 1 \/ k = q + 2 \/ k = q + 3)%nat as [->|[->|[->| ->]]] by lia.
    + left. split; auto. split; [unfold hk; change q with (kidx q ML1) at 2; rewrite kof_kidx; simpl; auto|]. intros x. apply (ml_cls_special labels ids En q x Eq).
    + right. left. split; auto. split; [unfold hk; change (q + 1)%nat with (kidx q MUnpen); rewrite kof_kidx; simpl; auto|]. intros x. apply (ml_cls_special labels ids En q x Eq).
    + right. right. left. split; auto. split; [unfold hk; change (q + 2)%nat with (kidx q MPos); rewrite kof_kidx; simpl; auto|]. intros x. apply (ml_cls_special labels ids En q x Eq).
    + right. right. right. split; auto. split; [unfold hk; change (q + 3)%nat with (kidx q MNonneg); rewrite kof_kidx; simpl; auto|]. intros x. apply (ml_cls_special labels ids En q x Eq).
Qed.
Lemma block_len : forall l x, length x = n -> length (block labels l x) = length (block labels l g).
Proof. intros l x Lx. unfold block. rewrite !pick_length; auto. Qed.
Hypothesis Free : Forall (fun b => b = 0) (block labels (-1) g).
Lemma dot_free : forall v, dot (block labels (-1) g) v = 0.
Proof. revert Free. generalize (block labels (-1) g). induction v as [|b v IH]; intros F [|c u]; auto. inversion F; subst. rewrite dot_cons, IH by auto. ring. Qed.
Definition nnpart (k : nat) (x : vec) : R := if Nat.eqb k (q + 3) then vsum (cls a k x) else 0.
Lemma nnpart_sum : forall x, rsum (q + 4) (fun k => nnpart k x) = vsum (block labels (-4) x).
Proof.
  intros x. rewrite (rsum_single (q + 4) _ (q + 3)%nat); [|lia|]. unfold nnpart. rewrite Nat.eqb_refl. f_equal. apply (ml_cls_special labels ids En q x Eq).
  intros k Hk N. unfold nnpart. destruct (Nat.eqb_spec k (q + 3)); [contradiction|auto].
Qed.
Lemma class_lower : forall y k t, length y = n -> (k < q + 4)%nat -> hk q warr k (cls a k y) = Fin t -> 0 <= dot (cls a k g) (cls a k y) + lam * (1 + tol) * t + lam * tol * nnpart k y.
Proof.
  intros y k t Ly Hk E. destruct (class_cases k Hk) as [(Lk & l & I & Rl & H & C)|[(-> & H & C)|[(-> & H & C)|[(-> & H & C)|(-> & H & C)]]]]; rewrite H, C in E; rewrite !C; unfold nnpart.
  - destruct (Nat.eqb_spec k (q + 3)); [lia|]. unfold group_term in E. injection E as <-. rewrite ell2_norm. destruct (nr_group l I Rl) as (A & _).
    assert (CS := cauchy_schwarz (vopp (block labels l g)) (block labels l y) ltac:(rewrite vopp_length, (block_len l y); auto)). rewrite dot_opp_l, norm_opp in CS. assert (Ny := norm_nonneg (block labels l y)).
    assert (norm (block labels l g) * norm (block labels l y) <= w l * lam * (1 + tol) * norm (block labels l y)) by (apply Rmult_le_compat_r; auto). lra.
  - destruct (Nat.eqb_spec q (q + 3)); [lia|]. cbn [doc_seminorm] in E. injection E as <-. rewrite Rmult_0_r, Rplus_0_r. unfold ell1. apply sep_lower; [rewrite (block_len _ y); auto|]. intros p Hp. apply abs_mult_low. apply nr_l1. rewrite <- (block_len _ y); auto.
  - destruct (Nat.eqb_spec (q + 1) (q + 3)); [lia|]. unfold free in E. injection E as <-. rewrite dot_free. lra.
  - destruct (Nat.eqb_spec (q + 2) (q + 3)); [lia|]. cbn [doc_seminorm] in E. destruct (nonneg_dec _) as [Ny|]; [|discriminate]. injection E as <-. rewrite (ell1_of_nonneg _ Ny), Rmult_0_r, Rplus_0_r. rewrite <- (map_id (block labels (-3) y)) at 2. apply sep_lower; [rewrite (block_len _ y); auto|].
    intros p Hp. assert (P := nonneg_entry _ p Ny). destruct (nr_pos p) as (A & _); [rewrite <- (block_len _ y); auto|]. nra.
  - rewrite Nat.eqb_refl, C. unfold nn_ind in E. destruct (nonneg_dec _) as [Ny|]; [|discriminate]. injection E as <-. rewrite Rmult_0_r, Rplus_0_r. rewrite <- (map_id (block labels (-4) y)) at 2. apply sep_lower; [rewrite (block_len _ y); auto|].
    intros p Hp. assert (P := nonneg_entry _ p Ny). destruct (nr_nn p) as (A & _); [rewrite <- (block_len _ y); auto|]. nra.
Qed.
Hypothesis Aligned : forall l, In l labels -> reserved l = false -> dot (block labels l g) (block labels l s) = - (norm (block labels l g) * norm (block labels l s)).
Lemma class_upper : forall k t, (k < q + 4)%nat -> hk q warr k (cls a k s) = Fin t -> dot (cls a k g) (cls a k s) + lam * (1 - tol) * t + - / 100 * nnpart k s <= 0.
Proof.
  intros k t Hk E. destruct (class_cases k Hk) as [(Lk & l & I & Rl & H & C)|[(-> & H & C)|[(-> & H & C)|[(-> & H & C)|(-> & H & C)]]]]; rewrite H, C in E; rewrite !C; unfold nnpart.
  - destruct (Nat.eqb_spec k (q + 3)); [lia|]. unfold group_term in E. injection E as <-. rewrite ell2_norm, Aligned by auto. destruct (nr_group l I Rl) as (_ & B). assert (Ns := norm_nonneg (block labels l s)).
    destruct (Req_EM_T (norm (block labels l s)) 0) as [Z|Z]; [rewrite Z; lra|]. specialize (B Z). assert (w l * lam * (1 - tol) * norm (block labels l s) <= norm (block labels l g) * norm (block labels l s)) by (apply Rmult_le_compat_r; auto). lra.
  - destruct (Nat.eqb_spec q (q + 3)); [lia|]. cbn [doc_seminorm] in E. injection E as <-. rewrite Rmult_0_r, Rplus_0_r. unfold ell1. apply sep_upper; [rewrite (block_len _ s); auto|]. intros p Hp. apply nr_l1. rewrite <- (block_len _ s); auto.
  - destruct (Nat.eqb_spec (q + 1) (q + 3)); [lia|]. unfold free in E. injection E as <-. rewrite dot_free. lra.
  - destruct (Nat.eqb_spec (q + 2) (q + 3)); [lia|]. cbn [doc_seminorm] in E. destruct (nonneg_dec _) as [Ny|]; [|discriminate]. injection E as <-. rewrite (ell1_of_nonneg _ Ny), Rmult_0_r, Rplus_0_r. rewrite <- (map_id (block labels (-3) s)) at 2. apply sep_upper; [rewrite (block_len _ s); auto|].
    intros p Hp. assert (P := nonneg_entry _ p Ny). apply nr_pos; auto. rewrite <- (block_len _ s); auto.
  - rewrite Nat.eqb_refl, C. unfold nn_ind in E. destruct (nonneg_dec _) as [Ny|]; [|discriminate]. injection E as <-. rewrite Rmult_0_r, Rplus_0_r. rewrite <- (map_id (block labels (-4) s)) at 2. apply sep_upper; [rewrite (block_len _ s); auto|].
    intros p Hp. assert (P := nonneg_entry _ p Ny). apply nr_nn; auto. rewrite <- (block_len _ s); auto.
Qed.
Lemma a_valid : Forall (fun k => (k < q + 4)%nat) a /\ length a = n.
Proof. split; [apply kidx_all, ml_valid; auto|]. unfold a. rewrite map_length, ml_kinds_length. auto. Qed.
Lemma pen_split : forall x r, mixed_pen labels w x = Fin r -> exists G, (forall k, (k < q + 4)%nat -> hk q warr k (cls a k x) = Fin (G k)) /\ r = rsum (q + 4) G.
Proof. intros x r E. destruct (mfun_ok labels ids given En Hw) as [E1 _]. fold w in E1. unfold w in E. fold w in E. rewrite <- E1 in E. unfold mix in E. fold warr q a in E. unfold hsum in E. exact (esum_inv _ _ _ E). Qed.
Lemma sound_lower : forall y t, length y = n -> mixed_pen labels w y = Fin t -> - (lam * (1 + tol) * t + lam * tol * vsum (block labels (-4) y)) <= dot g y.
Proof.
  intros y t Ly E. destruct (pen_split y t E) as (G & HG & ->). destruct a_valid as (V & La). rewrite (dot_cls (q + 4) a) by (auto; congruence).
  assert (P : 0 <= rsum (q + 4) (fun k => dot (cls a k g) (cls a k y) + lam * (1 + tol) * G k + lam * tol * nnpart k y)) by (apply rsum_nonneg; intros k Hk; apply class_lower; auto).
  rewrite !rsum_plus, !rsum_scal, nnpart_sum in P. lra.
Qed.
Lemma sound_upper : forall r, mixed_pen labels w s = Fin r -> dot g s <= - (lam * (1 - tol) * r) + / 100 * vsum (block labels (-4) s).
Proof.
  intros r E. destruct (pen_split s r E) as (G & HG & ->). destruct a_valid as (V & La). rewrite (dot_cls (q + 4) a) by (auto; congruence).
  assert (P : rsum (q + 4) (fun k => dot (cls a k g) (cls a k s) + lam * (1 - tol) * G k + - / 100 * nnpart k s) <= rsum (q + 4) (fun _ => 0)) by (apply rsum_le; intros k Hk; apply class_upper; auto).
  rewrite (rsum_zero _ (fun _ => 0)), !rsum_plus, !rsum_scal, nnpart_sum in P by auto. lra.
Qed.
Lemma kkt_sound : forall f r y t, convex_on n f -> is_gradient n f s g -> mixed_pen labels w s = Fin r -> length y = n -> mixed_pen labels w y = Fin t ->
  f s + lam * r <= f y + lam * t + lam * tol * (r + t + vsum (block labels (-4) y)) + / 100 * vsum (block labels (-4) s).
Proof.
  intros f r y t Hc Hg Er Ly Et. assert (T := convex_tangent n f s g y Hc Hg Ls Ly). rewrite dot_sub_r in T by congruence. assert (A := sound_lower y t Ly Et). assert (B := sound_upper r Er). nra.
Qed.
End Sound.

(** ** The object's methods *)
Lemma check_length : forall a g s lam tol, length g = length (ml_labels a) -> length s = length (ml_labels a) -> length (ml_check_KKT a g s lam tol) = length (ml_labels a).
Proof. intros a g s lam tol Lg Ls. unfold ml_check_KKT, kkt_mixed. rewrite map_length, !combine_length, ml_kinds_length. lia. Qed.
Lemma check_exact : forall a g s lam tol i, enumerates (ml_ids a) (ml_labels a) -> weights_ok (ml_labels a) (ml_weights a) -> length g = length (ml_labels a) -> length s = length (ml_labels a) -> (i < length (ml_labels a))%nat ->
  nth i (ml_check_KKT a g s lam tol) false = true <-> reported (ml_labels a) (group_weight (ml_weights a) (ml_labels a)) g s lam tol i.
Proof. intros a g s lam tol i En Hw Lg Ls Hi. unfold ml_check_KKT. apply check_meaning; auto. Qed.
Lemma nothing_failing : forall a g s lam tol, enumerates (ml_ids a) (ml_labels a) -> weights_ok (ml_labels a) (ml_weights a) -> length g = length (ml_labels a) -> length s = length (ml_labels a) ->
  ml_check_KKT a g s lam tol = repeat false (length (ml_labels a)) <-> forall i, (i < length (ml_labels a))%nat -> ~ reported (ml_labels a) (group_weight (ml_weights a) (ml_labels a)) g s lam tol i.
Proof.
  intros a g s lam tol En Hw Lg Ls. split.
  - intros E i Hi C. apply (check_exact a g s lam tol i) in C; auto. rewrite E in C. rewrite nth_repeat in C. discriminate.
  - intros H. apply (nth_ext _ _ false false); rewrite check_length by auto; [rewrite repeat_length; auto|]. intros i Hi. rewrite nth_repeat. specialize (H i Hi). destruct (nth i (ml_check_KKT a g s lam tol) false) eqn:E; auto. exfalso. apply H. apply check_exact; auto.
Qed.
Lemma check_complete : forall a f g s lam tol, enumerates (ml_ids a) (ml_labels a) -> weights_ok (ml_labels a) (ml_weights a) -> 0 < lam -> 0 < tol -> is_gradient (length (ml_labels a)) f s g ->
  mixed_minimizer (ml_labels a) (ml_weights a) f lam s -> ml_check_KKT a g s lam tol = repeat false (length (ml_labels a)).
Proof.
  intros a f g s lam tol En Hw Hl Ht Hg M. assert (Ls : length s = length (ml_labels a)) by apply M. assert (Lg : length g = length (ml_labels a)) by apply Hg. apply nothing_failing; auto.
  intros i Hi. apply (stat_not_reported (ml_labels a) (ml_ids a) (ml_weights a) En Hw lam tol g s i Hl Ht); auto. apply (minimizer_stat _ _ f); auto.
Qed.
Lemma check_sound : forall a f g s lam tol r y t, enumerates (ml_ids a) (ml_labels a) -> weights_ok (ml_labels a) (ml_weights a) -> 0 < lam -> convex_on (length (ml_labels a)) f -> is_gradient (length (ml_labels a)) f s g ->
  length s = length (ml_labels a) -> ml_check_KKT a g s lam tol = repeat false (length (ml_labels a)) ->
  Forall (fun b => b = 0) (block (ml_labels a) (-1) g) -> (forall l, In l (ml_labels a) -> reserved l = false -> dot (block (ml_labels a) l g) (block (ml_labels a) l s) = - (norm (block (ml_labels a) l g) * norm (block (ml_labels a) l s))) ->
  mixed_pen (ml_labels a) (group_weight (ml_weights a) (ml_labels a)) s = Fin r -> length y = length (ml_labels a) -> mixed_pen (ml_labels a) (group_weight (ml_weights a) (ml_labels a)) y = Fin t ->
  f s + lam * r <= f y + lam * t + lam * tol * (r + t + vsum (block (ml_labels a) (-4) y)) + / 100 * vsum (block (ml_labels a) (-4) s).
Proof.
  intros a f g s lam tol r y t En Hw Hl Hc Hg Ls E F A Er Ly Et. assert (Lg : length g = length (ml_labels a)) by apply Hg. apply (kkt_sound (ml_labels a) (ml_weights a) Hw lam tol g s Hl Lg Ls); auto. apply nothing_failing; auto.
Qed.
Lemma strong_length : forall a cur new g slope, length g = length (ml_labels a) -> length (ml_strong_set a cur new g slope) = length (ml_labels a).
Proof. intros a cur new g slope Lg. unfold ml_strong_set, strong_mixed. rewrite map_length, combine_length, ml_kinds_length. lia. Qed.
Lemma strong_exact : forall a cur new g slope i, enumerates (ml_ids a) (ml_labels a) -> weights_ok (ml_labels a) (ml_weights a) -> length g = length (ml_labels a) -> (i < length (ml_labels a))%nat ->
  nth i (ml_strong_set a cur new g slope) false = true <-> kept_by_rule (ml_labels a) (group_weight (ml_weights a) (ml_labels a)) g cur new slope i.
Proof. intros a cur new g slope i En Hw Lg Hi. unfold ml_strong_set. apply strong_meaning_mixed; auto. Qed.
Lemma strong_safe : forall a f g gn s cur new slope i, enumerates (ml_ids a) (ml_labels a) -> weights_ok (ml_labels a) (ml_weights a) -> 0 < new -> new <= cur -> 0 <= slope -> length g = length (ml_labels a) ->
  is_gradient (length (ml_labels a)) f s gn -> mixed_minimizer (ml_labels a) (ml_weights a) f new s -> (i < length (ml_labels a))%nat ->
  (reserved (nth i (ml_labels a) 0%Z) = true -> Rabs (nth i gn 0 - nth i g 0) <= slope * (cur - new)) ->
  (reserved (nth i (ml_labels a) 0%Z) = false -> norm (block (ml_labels a) (nth i (ml_labels a) 0%Z) (vsub gn g)) <= slope * (cur - new) /\ group_weight (ml_weights a) (ml_labels a) (nth i (ml_labels a) 0%Z) <= 1) ->
  nth i (ml_strong_set a cur new g slope) false = false -> nth i s 0 = 0.
Proof.
  intros a f g gn s cur new slope i En Hw Hn Hc Hs Lg Hg M Hi D1 D2 K. apply (stat_discard (ml_labels a) (ml_ids a) (ml_weights a) En Hw new cur slope g gn s i); auto. apply (minimizer_stat _ _ f); auto.
  intros C. apply (strong_exact a cur new g slope i) in C; auto. congruence.
Qed.

(** ** Counterexamples *)
Lemma linear_gradient : forall n c x, length c = n -> length x = n -> is_gradient n (dot c) x c.
Proof.
  intros n c x Lc Lx. split; auto. intros d Ld eps He. exists (mkposreal 1 Rlt_0_1). intros h Hh _. rewrite !dot_add_r, !dot_scal_r by vlen.
  replace ((dot c x + (0 + h) * dot c d - (dot c x + 0 * dot c d)) / h - dot c d) with 0 by (field; auto). rewrite Rabs_R0. auto.
Qed.
Lemma linear_convex : forall n c, length c = n -> convex_on n (dot c).
Proof. intros n c Lc. apply (tangent_convex n (dot c) (fun _ => c)); auto. intros x y Lx Ly. rewrite dot_sub_r by congruence. lra. Qed.
Lemma free_unchecked : forall lam tol M, exists f g s, convex_on 1 f /\ is_gradient 1 f s g /\ ml_check_KKT (mlobj [(-1)%Z] [] (fun _ => None)) g s lam tol = [false] /\
  mixed_pen [(-1)%Z] (fun _ => 1) s = Fin 0 /\ exists y, length y = 1%nat /\ mixed_pen [(-1)%Z] (fun _ => 1) y = Fin 0 /\ f y = f s - M.
Proof.
  intros lam tol M. exists (dot [1]), [1], [0]. split; [apply linear_convex; auto|]. split; [apply linear_gradient; auto|]. split; [reflexivity|].
  assert (P : forall b, mixed_pen [(-1)%Z] (fun _ => 1) [b] = Fin 0). { intros b. cbn. destruct (nonneg_dec []) as [|N]; [|destruct N; constructor]. unfold ell1. cbn. f_equal. lra. }
  split; auto. exists [- M]. split; auto. split; auto. cbn. unfold dot. cbn. lra.
Qed.
Lemma norm1 : forall b, norm [b] = Rabs b.
Proof. intros b. unfold norm, sqn, dot. cbn. replace (0 + b * b) with (Rsqr b) by (unfold Rsqr; ring). replace (b * b + 0) with (Rsqr b) by (unfold Rsqr; ring). apply sqrt_Rsqr_abs. Qed.
Lemma norm_b0 : forall b, norm [b; 0] = Rabs b.
Proof. intros b. rewrite <- (norm1 b). unfold norm, sqn, dot. cbn. f_equal. ring. Qed.
Lemma direction_unchecked : forall tol, 0 <= tol -> exists f g s, convex_on 2 f /\ is_gradient 2 f s g /\ ml_check_KKT (mlobj [1%Z; 1%Z] [1%Z] (fun _ => Some 1)) g s 1 tol = [false; false] /\
  mixed_pen [1%Z; 1%Z] (fun _ => 1) s = Fin 1 /\ mixed_pen [1%Z; 1%Z] (fun _ => 1) [0; 0] = Fin 0 /\ f s + 1 = f [0; 0] + 2.
Proof.
  intros tol Ht. exists (dot [1; 0]), [1; 0], [1; 0]. split; [apply linear_convex; auto|]. split; [apply linear_gradient; auto|]. split.
  - change ([false; false]) with (repeat false (length (ml_labels (mlobj [1%Z; 1%Z] [1%Z] (fun _ => Some 1))))). apply nothing_failing; auto.
    + apply Permutation_refl.
    + intros l Hl. unfold group_weight. cbn. lra.
    + intros i Hi. cbn [ml_labels ml_weights mlobj length] in *. unfold reported. assert (El : nth i [1%Z; 1%Z] 0%Z = 1%Z) by (destruct i as [|[|i]]; auto; lia). rewrite El. intros [[C _]|[[C _]|[[C _]|[_ C]]]]; try discriminate.
      unfold group_weight, block in C. cbn in C. rewrite norm_b0, Rabs_R1 in C. lra.
  - assert (P : forall b, mixed_pen [1%Z; 1%Z] (fun _ => 1) [b; 0] = Fin (Rabs b)). { intros b. unfold mixed_pen. cbn -[nonneg_dec]. destruct (nonneg_dec []) as [|N]; [|destruct N; constructor]. unfold group_term. rewrite ell2_norm, norm_b0. unfold ell1. cbn. f_equal. lra. }
    split; [rewrite P, Rabs_R1; auto|]. split; [rewrite P, Rabs_R0; auto|]. unfold dot. cbn. lra.
Qed.
Lemma ltb_false : forall a b, b <= a -> ltb a b = false.
Proof. intros a b H. unfold ltb. destruct (Rlt_dec a b); auto; lra. Qed.
Lemma leb_false : forall a b, b < a -> leb a b = false.
Proof. intros a b H. unfold leb. destruct (Rle_dec a b); auto; lra. Qed.
Lemma infeasible_accepted : forall lam tol, 0 < lam -> 0 < tol -> ml_check_KKT (mlobj [(-4)%Z] [] (fun _ => None)) [0] [-1] lam tol = [false] /\ mixed_pen [(-4)%Z] (fun _ => 1) [-1] = PInf /\
  ml_check_KKT (mlobj [(-3)%Z] [] (fun _ => None)) [- lam] [-1] lam tol = [false] /\ mixed_pen [(-3)%Z] (fun _ => 1) [-1] = PInf.
Proof.
  intros lam tol Hl Ht. assert (NN : ~ all_nonneg [-1]) by (intros C; inversion C; subst; lra). assert (0 < lam * tol) by nra. split; [|split; [|split]].
  - cbn. unfold nn_tol. rewrite !ltb_false by lra. cbn. rewrite andb_false_r. reflexivity.
  - unfold mixed_pen. cbn -[nonneg_dec]. destruct (nonneg_dec []) as [|N]; [|destruct N; constructor]. destruct (nonneg_dec [-1]); [contradiction|]. reflexivity.
  - cbn. replace (- - lam / lam - 1) with 0 by (field; lra). rewrite Rabs_R0, ltb_false, leb_false by lra. rewrite andb_false_r. reflexivity.
  - unfold mixed_pen. cbn -[nonneg_dec]. destruct (nonneg_dec [-1]); [contradiction|]. reflexivity.
Qed.
Lemma nn_fixed_tolerance : forall lam tol M, 0 < lam -> 0 < tol -> 0 < M -> exists f, convex_on 1 f /\ is_gradient 1 f [M] [/ 100] /\ ml_check_KKT (mlobj [(-4)%Z] [] (fun _ => None)) [/ 100] [M] lam tol = [false] /\
  mixed_pen [(-4)%Z] (fun _ => 1) [M] = Fin 0 /\ mixed_pen [(-4)%Z] (fun _ => 1) [0] = Fin 0 /\ f [M] = f [0] + M / 100.
Proof.
  intros lam tol M Hl Ht HM. assert (0 < lam * tol) by nra. exists (dot [/ 100]). split; [apply linear_convex; auto|]. split; [apply linear_gradient; auto|]. split.
  - cbn. unfold nn_tol. rewrite !ltb_false by lra. rewrite andb_false_r. reflexivity.
  - assert (P : forall b, 0 <= b -> mixed_pen [(-4)%Z] (fun _ => 1) [b] = Fin 0). { intros b Hb. unfold mixed_pen. cbn -[nonneg_dec]. destruct (nonneg_dec []) as [|N]; [|destruct N; constructor]. destruct (nonneg_dec [b]) as [|N]; [|destruct N; constructor; auto; constructor]. unfold ell1. cbn. f_equal. lra. }
    split; [apply P; lra|]. split; [apply P; lra|]. unfold dot. cbn. lra.
Qed.
(** a group of four features has default weight 2: the rule subtracts slope * cur without the weight *)
Lemma norm4 : forall b, norm [b; 0; 0; 0] = Rabs b.
Proof. intros b. rewrite <- (norm1 b). unfold norm, sqn, dot. cbn. f_equal. ring. Qed.
Lemma four_weight : group_weight (fun _ => None) four 1%Z = 2.
Proof. unfold group_weight. cbn. replace (1 + 1 + 1 + 1) with (2 * 2) by ring. apply sqrt_square. lra. Qed.
Lemma four_pen : forall x, length x = 4%nat -> mixed_pen four (group_weight (fun _ => None) four) x = Fin (2 * norm x).
Proof.
  intros [|a [|b [|c [|d [|]]]]] L; try discriminate. unfold mixed_pen. change (mixed_groups four) with [1%Z]. cbn [map]. rewrite four_weight. cbn -[nonneg_dec]. destruct (nonneg_dec []) as [|N]; [|destruct N; constructor]. unfold group_term. rewrite ell2_norm. unfold ell1. cbn. f_equal. lra.
Qed.
Lemma strong_unsafe : exists f g gn s, convex_on 4 f /\ is_gradient 4 f s gn /\ mixed_minimizer four (fun _ => None) f 1 s /\ norm (vsub gn g) <= 1 * (3 / 2 - 1) /\
  nth 0 (ml_strong_set (mlobj four [1%Z] (fun _ => None)) (3 / 2) 1 g 1) false = false /\ nth 0 s 0 <> 0.
Proof.
  exists (dot [2; 0; 0; 0]), [24 / 10; 0; 0; 0], [2; 0; 0; 0], [-1; 0; 0; 0]. split; [apply linear_convex; auto|]. split; [apply linear_gradient; auto|]. split; [|split; [|split]].
  - split; [reflexivity|]. unfold objective, mfun. cbn [gmode]. split; [rewrite four_pen by auto; eexists; reflexivity|]. intros y Ly. rewrite !four_pen by auto. cbn [ext_add ext_le]. rewrite norm4. rewrite (Rabs_left (-1)) by lra.
    assert (CS := cauchy_schwarz (vopp [2; 0; 0; 0]) y ltac:(rewrite vopp_length; auto)). rewrite dot_opp_l, norm_opp, norm4, Rabs_right in CS by lra. replace (dot [2; 0; 0; 0] [-1; 0; 0; 0]) with (-2) by (unfold dot; cbn; lra). cbn. cbn in CS. lra.
  - replace (vsub [2; 0; 0; 0] [24 / 10; 0; 0; 0]) with [- (4 / 10); 0; 0; 0] by (unfold vsub; cbn; repeat (f_equal; try lra)). rewrite norm4, Rabs_left by lra. lra.
  - destruct (nth 0 (ml_strong_set (mlobj four [1%Z] (fun _ => None)) (3 / 2) 1 [24 / 10; 0; 0; 0] 1) false) eqn:E; auto. exfalso. apply (strong_exact (mlobj four [1%Z] (fun _ => None))) in E; cbn [ml_labels ml_ids ml_weights mlobj] in *; auto; [| | |simpl; lia].
    + unfold kept_by_rule in E. cbn [nth four] in E. destruct E as [E|[[E _]|[[E _]|[[E _]|[_ E]]]]]; try discriminate. change (1%Z) with (nth 0 four 0%Z) in E. cbn [nth four] in E. fold four in E. rewrite four_weight in E. unfold block in E. cbn [four pick Z.eqb Pos.eqb] in E. rewrite norm4, Rabs_right in E by lra. lra.
    + apply Permutation_refl.
    + intros l Hl. change (mixed_groups four) with [1%Z] in Hl. destruct Hl as [<-|[]]. rewrite four_weight. lra.
  - cbn. lra.
Qed.
Lemma four_minimum : mixed_minimizer four (fun _ => None) (dot [2; 0; 0; 0]) 1 [-1; 0; 0; 0].
Proof.
  split; [reflexivity|]. unfold objective, mfun. cbn [gmode]. split; [rewrite four_pen by auto; eexists; reflexivity|]. intros y Ly. rewrite !four_pen by auto. cbn [ext_add ext_le]. rewrite norm4. rewrite (Rabs_left (-1)) by lra.
  assert (CS := cauchy_schwarz (vopp [2; 0; 0; 0]) y ltac:(rewrite vopp_length; auto)). rewrite dot_opp_l, norm_opp, norm4, Rabs_right in CS by lra. replace (dot [2; 0; 0; 0] [-1; 0; 0; 0]) with (-2) by (unfold dot; cbn; lra). cbn. cbn in CS. lra.
Qed.
Lemma two_minimum : mixed_minimizer [(-2)%Z; (-2)%Z] (fun _ => None) (dot [1; / 2]) 1 [-3; 0].
Proof.
  assert (P : forall a b, mixed_pen [(-2)%Z; (-2)%Z] (group_weight (fun _ => None) [(-2)%Z; (-2)%Z]) [a; b] = Fin (Rabs a + Rabs b)).
  { intros a b. unfold mixed_pen. cbn -[nonneg_dec]. destruct (nonneg_dec []) as [|N]; [|destruct N; constructor]. unfold ell1. cbn. f_equal. lra. }
  split; [reflexivity|]. unfold objective, mfun. cbn [gmode]. split; [rewrite P; eexists; reflexivity|]. intros [|a [|b [|]]] Ly; try discriminate. rewrite !P. cbn. unfold dot. cbn. rewrite (Rabs_left (-3)) by lra. rewrite Rabs_R0.
  assert (A := Rle_abs (- a)). rewrite Rabs_Ropp in A. assert (B := Rle_abs (- b)). rewrite Rabs_Ropp in B. assert (C := Rabs_pos b). lra.
Qed.
