(** The array model on vectors is the model of M_affine. *)
From Coq Require Import Reals List Lra Lia Arith Bool.
From Verif Require Import Vec Spec P_quad P_cones M_affine SpecAffine P_affine M_dense SpecDense P_dense.
Import ListNotations.
Local Open Scope R_scope.

Lemma acc_adj : forall n l u, acc_blocks t_adj t_out n l u = vstack_adj n l u.
Proof. induction l as [|T l IH]; intros u; auto. cbn. rewrite IH. auto. Qed.
Lemma acc_lin : forall n l u, acc_blocks t_lin t_in n l u = hstack_lin n l u.
Proof. induction l as [|T l IH]; intros u; auto. cbn. rewrite IH. auto. Qed.
Lemma stack_off_vec : forall off v, length v = length off -> add_stack_off (Ok off) (Ok (A1 v)) = Ok (A1 (with_offset (if all_zero off then None else Some off) v)).
Proof. intros off v L. unfold add_stack_off. cbn [rbind]. destruct (all_zero off); auto. rewrite bcast_vec by auto. cbn. rewrite vadd_comm. auto. Qed.
Lemma index_vec : forall idx x, Forall (fun i => (i < length x)%nat) idx -> index idx (A1 x) = Ok (A1 (gather idx x)).
Proof. intros idx x H. unfold index. assert (E : forallb (fun i => Nat.ltb i (alen (A1 x))) idx = true). { apply forallb_forall. intros i Hi. rewrite Forall_forall in H. apply Nat.ltb_lt. apply (H i Hi). } rewrite E. auto. Qed.
Lemma gather_length : forall idx x, length (gather idx x) = length idx. Proof. intros. apply map_length. Qed.

Lemma act_wrap : forall m T o x, act m (wrap T o) x = off_of m o (act m T x). Proof. intros [| |]; reflexivity. Qed.
Lemma wtotal_wsum : forall (F : transform -> vec -> vec) k l x, fold_right (fun q acc => vadd acc (vscal (snd q) (F (fst q) x))) (zeros k) l = wsum F k l x.
Proof. induction l as [|q l IH]; intros x; auto. cbn. rewrite IH. auto. Qed.
Lemma sum_form : forall Ts w S, affine_sum Ts (Some w) = Ok S -> length Ts = length w /\ exists T0 Ts', Ts = T0 :: Ts' /\
  forall m, act m S = weighted (act m) (match m with Adj => t_in T0 | _ => t_out T0 end) (combine Ts w) /\ src m S = src m T0.
Proof.
  intros Ts w S E. unfold affine_sum in E. destruct (Nat.eqb (length Ts) (length w)) eqn:Q; [|discriminate]. apply Nat.eqb_eq in Q. split; auto. cbn [negb] in E. destruct Ts as [|T0 Ts]; [discriminate|]. injection E as <-. exists T0, Ts. split; auto. intros [| |]; auto.
Qed.
Lemma composition_form : forall Ts S, composition Ts = Ok S -> exists T0 Ts', Ts = T0 :: Ts' /\ act Lin S = run_right t_lin Ts /\ act Aff S = run_right t_aff Ts /\ act Adj S = run_left t_adj Ts /\
  t_in S = t_in (last Ts T0) /\ t_out S = t_out T0.
Proof. intros [|T0 Ts] S E; [discriminate|]. injection E as <-. exists T0, Ts. repeat split; auto. Qed.
Lemma right_vec : forall m ps d x, m <> Adj -> (forall p, In p ps -> denotes (fst p) (snd p)) -> (forall p, In p ps -> forall m x, length x = src m (snd p) -> ap m (fst p) (A1 x) = Ok (A1 (act m (snd p) x))) ->
  chained (map snd ps) -> ps <> [] -> length x = t_in (last (map snd ps) d) ->
  from_right (fun t v => ap m t v) (map fst ps) (A1 x) = Ok (A1 (run_right (act m) (map snd ps) x)) /\ length (run_right (act m) (map snd ps) x) = t_out (hd d (map snd ps)).
Proof.
  intros m ps d x Hm. assert (Sm : forall T, src m T = t_in T /\ dst m T = t_out T) by (destruct m; auto; congruence).
  induction ps as [|p l IH]; intros HD H C N L; [congruence|]. cbn [map hd]. rewrite from_right_cons. cbn [run_right fold_right]. destruct l as [|q l].
  - cbn [map last] in L. cbn [map from_right rbind fold_right]. rewrite H; [|left; auto|rewrite (proj1 (Sm _)); auto]. split; auto. rewrite (act_length m (fst p)); [apply Sm|apply HD; left; auto|rewrite (proj1 (Sm _)); auto].
  - cbn [map] in C, L. destruct C as [C1 C2]. rewrite last_cons2 in L. destruct IH as [E Lr]; [intros; apply HD; right; auto|intros; apply H; auto; right; auto|exact C2|discriminate|exact L|].
    change (fold_right (act m) x (map snd (q :: l))) with (run_right (act m) (map snd (q :: l)) x). rewrite E. cbn [rbind]. cbn [map hd] in Lr. assert (LL : length (run_right (act m) (map snd (q :: l)) x) = src m (snd p)) by (rewrite (proj1 (Sm _)), C1; exact Lr).
    rewrite H; [|left; auto|exact LL]. split; auto. rewrite (act_length m (fst p)); [apply Sm|apply HD; left; auto|exact LL].
Qed.
Lemma left_vec : forall ps d x, (forall p, In p ps -> denotes (fst p) (snd p)) -> (forall p, In p ps -> forall m x, length x = src m (snd p) -> ap m (fst p) (A1 x) = Ok (A1 (act m (snd p) x))) ->
  chained (map snd ps) -> ps <> [] -> length x = t_out (hd d (map snd ps)) -> from_left (fun t v => ap Adj t v) (map fst ps) (A1 x) = Ok (A1 (run_left t_adj (map snd ps) x)).
Proof.
  induction ps as [|p l IH]; intros d x HD H C N L; [congruence|]. cbn [map hd] in *. rewrite from_left_cons. rewrite (H p (or_introl eq_refl) Adj) by auto. cbn [rbind act]. rewrite run_left_adj_cons. destruct l as [|q l]; auto. destruct C as [C1 C2].
  apply (IH d); [intros; apply HD; right; auto|intros; apply H; auto; right; auto|exact C2|discriminate|]. cbn [map hd]. rewrite <- C1. apply (act_length Adj (fst p)); auto. apply HD. left; auto.
Qed.

Lemma ap_vec : forall t T, denotes t T -> forall m x, length x = src m T -> ap m t (A1 x) = Ok (A1 (act m T x)).
Proof.
  intros t T D. induction D; intros m x Lx; cbn [ap].
  - (* matrix *) destruct m; cbn [act src matrix t_lin t_aff t_adj t_in t_out] in *; [| |unfold tdots; cbn [alen]; rewrite Lx, Nat.eqb_refl; auto];
      unfold dots; cbn [alen]; rewrite Lx, Nat.eqb_refl; cbn [rbind]; rewrite add_off_vec; auto; intros _ a E; unfold mat_vec; rewrite map_length; auto.
  - (* diagonal *) assert (L : length d = length x) by (destruct m; cbn in *; auto). rewrite bf_vec by auto. cbn [rbind]. rewrite add_off_vec by (intros _ a E; rewrite vzip_length; auto). destruct m; auto.
  - (* shift *) rewrite add_off_vec; [destruct m; auto|]. intros _ b E. injection E as <-. destruct m; cbn in *; auto.
  - (* wrap *) assert (L : length x = src m T) by (destruct m; auto). rewrite IHD by auto. cbn [rbind]. rewrite add_off_vec; [rewrite act_wrap; auto|]. intros -> a E. rewrite (act_length Aff t) by auto. cbn. auto.
  - (* selector *) destruct (selector_form _ _ _ _ H2) as [o ->].
    assert (G : forall m, m <> Adj -> length x = n -> rbind (index idx (A1 x)) (ap m t) = Ok (A1 (act m T (gather idx x)))).
    { intros m0 Hm Ln. rewrite index_vec by (rewrite Ln; auto). cbn [rbind]. apply IHD. destruct m0; cbn; try rewrite H1; auto using gather_length. congruence. }
    destruct m; cbn [act src t_lin t_aff t_adj t_in t_out] in *; [apply (G Lin); auto; discriminate|apply (G Aff); auto; discriminate|].
    rewrite IHD by auto. cbn [rbind]. rewrite assign_vec; [auto|]. rewrite (act_length Adj t) by auto. exact H1.
  - (* scaler *) assert (L : length s = length x) by (destruct m; cbn in *; auto). rewrite bcast_vec by auto. destruct m; auto.
  - (* reshape *) rewrite flat_vec; [destruct m; auto|destruct m; auto].
  - (* intercept *) destruct m; cbn [act src add_intercept t_lin t_aff t_adj t_in t_out] in *.
    + destruct x as [|a x]; [cbn in Lx; lia|]. cbn [drop skipn tl hd]. rewrite IHD by (cbn in *; lia). auto.
    + destruct x as [|a x]; [cbn in Lx; lia|]. cbn [drop skipn tl hd]. rewrite IHD by (cbn in *; lia). auto.
    + rewrite IHD by auto. auto.
  - (* centering *) destruct m; auto.
  - (* identity *) destruct m; auto.
  - (* vstack *) destruct (vstack_form _ _ H1) as (n & off & Hn & Eo & ES). cbv zeta in ES.
    assert (HN : forall p, In p ps -> t_in (snd p) = n) by (intros p Hp; apply Hn, in_map; auto).
    assert (HO : forall p, In p ps -> e_out (fst p) = t_out (snd p)) by (intros p Hp; apply denotes_sizes; auto).
    assert (NE : match map fst ps with t :: _ => e_in t | [] => 0%nat end = n). { destruct ps as [|p ps]; [discriminate|]. cbn. rewrite (proj1 (denotes_sizes _ _ (H p (or_introl eq_refl)))). apply HN. left; auto. }
    assert (FL : length x = n -> fill (fun t => ap Lin t (A1 x)) e_out (map fst ps) = Ok (concat (map (fun T => t_lin T x) (map snd ps)))).
    { intros Ln. apply (fill_vec ps _ _ _ t_out). intros p Hp. assert (L : length x = src Lin (snd p)) by (cbn; rewrite HN; auto). split; [apply H0; auto|]. split; [apply (act_length Lin (fst p)); auto|auto]. }
    assert (FA : fill (fun t => ap Aff t (A1 (zeros n))) e_out (map fst ps) = Ok off).
    { rewrite Eo. apply (fill_vec ps _ (fun T => t_aff T (zeros n)) _ t_out). intros p Hp. assert (L : length (zeros n) = src Aff (snd p)) by (cbn; rewrite zeros_length, HN; auto). split; [apply H0; auto|]. split; [apply (act_length Aff (fst p)); auto|auto]. }
    rewrite ES in *. destruct m; cbn [act src t_lin t_aff t_adj t_in t_out] in *; rewrite ?NE.
    + rewrite FL by auto. auto.
    + rewrite FL, FA by auto. cbn [rbind]. apply stack_off_vec. rewrite Eo. rewrite (concat_len _ _ t_out), (concat_len _ _ t_out); auto; intros T HT; apply in_map_iff in HT; destruct HT as (p & <- & Hp).
      * apply (act_length Aff (fst p)); auto. cbn. rewrite zeros_length, HN; auto.
      * apply (act_length Lin (fst p)); auto. cbn. rewrite HN; auto.
    + rewrite (accumulate_vec ps _ t_adj _ t_out n); auto.
      * rewrite acc_adj. f_equal. f_equal. rewrite vadd_comm. apply vadd_zeros_r. apply vstack_adj_length; auto. intros T HT. apply in_map_iff in HT. destruct HT as (p & <- & Hp). split; [apply built_good, (denotes_built (fst p)); auto|auto].
      * intros p v Hp Lv. split; [apply H0; auto|]. rewrite <- (HN p Hp). apply (act_length Adj (fst p)); auto.
      * apply zeros_length.
  - (* hstack *) destruct (hstack_form _ _ H1) as (k & off & Hk & Eo & ES). cbv zeta in ES.
    assert (HK : forall p, In p ps -> t_out (snd p) = k) by (intros p Hp; apply Hk, in_map; auto).
    assert (HI : forall p, In p ps -> e_in (fst p) = t_in (snd p)) by (intros p Hp; apply denotes_sizes; auto).
    assert (NE : match map fst ps with t :: _ => e_out t | [] => 0%nat end = k). { destruct ps as [|p ps]; [discriminate|]. cbn. rewrite (proj2 (denotes_sizes _ _ (H p (or_introl eq_refl)))). apply HK. left; auto. }
    assert (LH : length x = list_sum (map t_in (map snd ps)) -> length (hstack_lin k (map snd ps) x) = k).
    { intros L. rewrite hstack_vstack. apply vstack_adj_length; [|rewrite map_map; exact L]. intros T HT. apply in_map_iff in HT. destruct HT as (T' & <- & HT). apply in_map_iff in HT. destruct HT as (p & <- & Hp).
      split; [apply adjoint_swap, built_good, (denotes_built (fst p)); auto|cbn; auto]. }
    assert (FL : length x = list_sum (map t_in (map snd ps)) -> accumulate (fun t b => ap Lin t b) e_in (map fst ps) (A1 x) (A1 (zeros k)) = Ok (A1 (hstack_lin k (map snd ps) x))).
    { intros L. rewrite (accumulate_vec ps _ t_lin _ t_in k); auto; [|intros p v Hp Lv; split; [apply H0; auto|rewrite <- (HK p Hp); apply (act_length Lin (fst p)); auto]|apply zeros_length].
      rewrite acc_lin. f_equal. f_equal. rewrite vadd_comm. apply vadd_zeros_r; auto. }
    assert (LO : length off = k).
    { rewrite Eo. assert (Q : forall p, In p ps -> length (t_aff (snd p) (zeros (t_in (snd p)))) = k) by (intros p Hp; rewrite <- (HK p Hp); apply (act_length Aff (fst p)); auto; cbn; apply zeros_length). clear - Q. induction ps as [|p ps IH]; [apply zeros_length|].
      cbn [map fold_right]. assert (Lp := Q p (or_introl eq_refl)). rewrite vadd_length; [auto|]. rewrite Lp. symmetry. apply IH. intros; apply Q; right; auto. }
    assert (FA : rbind (total (fun t => ap Aff t (A1 (zeros (e_in t)))) (map fst ps) (A1 (zeros k))) as_vec = Ok off).
    { rewrite (total_vec ps _ (fun T => t_aff T (zeros (t_in T))) k); [|intros p Hp; rewrite (HI p Hp); assert (Lz : length (zeros (t_in (snd p))) = src Aff (snd p)) by (cbn; apply zeros_length); split; [apply H0; auto|rewrite <- (HK p Hp); apply (act_length Aff (fst p)); auto]|apply zeros_length].
      rewrite <- Eo. cbn. rewrite vadd_comm. rewrite vadd_zeros_r; auto. }
    rewrite ES in *. destruct m; cbn [act src t_lin t_aff t_adj t_in t_out] in *; rewrite ?NE.
    + auto.
    + rewrite FL, FA by auto. apply stack_off_vec. rewrite LO. auto.
    + rewrite (fill_vec ps _ (fun T => t_adj T x) _ t_in); auto. intros p Hp. assert (L : length x = src Adj (snd p)) by (cbn; rewrite HK; auto). rewrite (H0 p Hp Adj x L). split; auto. split; [apply (act_length Adj (fst p)); auto|auto].
  - (* product *) assert (HI : forall p, In p ps -> e_in (fst p) = t_in (snd p) /\ e_out (fst p) = t_out (snd p)) by (intros p Hp; apply denotes_sizes; auto).
    assert (FL : length x = list_sum (map t_in (map snd ps)) -> split_fill (fun t b => rbind (flat (e_in t) b) (ap Lin t)) e_in e_out (map fst ps) (A1 x) = Ok (blocks t_lin t_in (map snd ps) x)).
    { intros L. apply (split_fill_vec ps _ t_lin _ _ t_in t_out); auto. intros p v Hp Lv. rewrite (proj1 (HI p Hp)), flat_vec by auto. cbn [rbind]. split; [apply (H0 p Hp Lin); auto|apply (act_length Lin (fst p)); auto]. }
    unfold product in *. destruct m; cbn [act src t_lin t_aff t_adj t_in t_out] in *.
    + rewrite FL by auto. auto.
    + rewrite (fill_vec ps _ (fun T => t_aff T (zeros (t_in T))) _ t_out); [|intros p Hp; rewrite (proj1 (HI p Hp)); assert (Lz : length (zeros (t_in (snd p))) = src Aff (snd p)) by (cbn; apply zeros_length); split; [apply H0; auto|split; [apply (act_length Aff (fst p)); auto|apply HI; auto]]].
      rewrite FL by auto. cbn [rbind]. apply stack_off_vec. rewrite (concat_len _ _ t_out), (blocks_len _ t_in t_out); auto.
      * intros T y HT Ly. apply in_map_iff in HT. destruct HT as (p & <- & Hp). apply (act_length Lin (fst p)); auto.
      * intros T HT. apply in_map_iff in HT. destruct HT as (p & <- & Hp). apply (act_length Aff (fst p)); auto. cbn. apply zeros_length.
    + rewrite (split_fill_vec ps _ t_adj _ _ t_out t_in); auto; [|intros p Hp; split; apply HI; auto]. intros p v Hp Lv. rewrite (H0 p Hp Adj v) by auto. split; auto. apply (act_length Adj (fst p)); auto.
  - (* aslinear *) destruct m; cbn [act src aslinear t_lin t_aff t_adj t_in t_out] in *; [apply (IHD Lin)|apply (IHD Lin)|apply (IHD Adj)]; cbn; congruence.
  - (* adjoint *) destruct m; cbn [act src adjoint t_lin t_aff t_adj t_in t_out] in *; [apply (IHD Adj)|apply (IHD Adj)|apply (IHD Lin)]; auto.
  - (* residual *) destruct (residual_form _ _ H) as [Q ->]. assert (L : length x = src m T) by (destruct m; auto). rewrite IHD by auto. cbn [rbind]. rewrite bcast_vec; [destruct m; auto|]. rewrite (act_length m t) by auto. destruct m; cbn in *; congruence.
  - (* composition *) destruct (composition_form _ _ H2) as (T0 & Ts' & ET & E1 & E2 & E3 & I & O). assert (N : ps <> []) by (intros ->; discriminate).
    destruct m; cbn [src] in Lx.
    + rewrite E1. apply (right_vec Lin ps T0 x); auto; [discriminate|congruence].
    + rewrite E2. apply (right_vec Aff ps T0 x); auto; [discriminate|congruence].
    + rewrite E3. apply (left_vec ps T0 x); auto. rewrite ET. cbn. congruence.
  - (* sum *) destruct (sum_form _ _ _ H2) as (Lw & T0 & Ts' & ET & A). destruct (A m) as [A1' A2']. rewrite A2' in Lx.
    assert (IN0 : In T0 (map snd ps)) by (rewrite ET; left; auto).
    assert (HS : forall p, In p ps -> src m (snd p) = src m T0 /\ dst m (snd p) = dst m T0). { intros p Hp. destruct (H1 (snd p) T0 (in_map snd _ _ Hp) IN0) as [Q1 Q2]. destruct m; auto. }
    destruct (wtotal_vec ps w (fun t => ap m t (A1 x)) (fun T => act m T x) (dst m T0)) as [E _].
    + intros p Hp. destruct (HS p Hp) as [Q1 Q2]. split; [apply H0; auto; congruence|]. rewrite <- Q2. apply (act_length m (fst p)); auto. congruence.
    + rewrite map_length in Lw. auto.
    + intros ->. discriminate.
    + rewrite E. cbn [rbind]. f_equal. f_equal. rewrite A1', weighted_wsum, <- wtotal_wsum. destruct m; auto.
  - (* scalar *) assert (L : length x = src m T) by (destruct m; auto). rewrite IHD by auto. cbn [rbind]. destruct m; cbn [act scalar_multiply t_lin t_aff t_adj]; unfold times; destruct (Req_EM_T a 1); auto.
Qed.
