(** Proofs about the path of mixed lasso problems. *)
From Coq Require Import Reals List Lra Lia Psatz Bool Permutation ZArith.
From Verif Require Import M_loss Vec Spec SpecConvex SpecFista M_quad M_prox M_semi SpecAtom M_shift SpecBase SpecMode M_mode SpecModed SpecWeighted SpecPart SpecGroup M_slope M_mixed M_group M_mixed_atom SpecGatom M_mkkt SpecMkkt M_path M_mpath SpecMpath
  P_quad P_pl P_prox P_feas P_semi P_conj P_shift P_gauge P_part P_mixed P_kinds P_group P_group2 P_calc P_problem P_fista P_sep P_mkkt P_mkkt2.
Import ListNotations.
Local Open Scope R_scope.

(** ** Masks *)
Lemma keep_length : forall {A B} m (l : list A) (l' : list B), length l = length m -> length l' = length m -> length (keep m l) = length (keep m l').
Proof. induction m as [|b m IH]; intros [|a l] [|a' l'] L L'; simpl in *; try discriminate; auto. destruct b; simpl; [f_equal|]; apply IH; lia. Qed.
Lemma put_length : forall {A} (z : A) m v, length (put z m v) = length m.
Proof. induction m as [|[] m IH]; intros v; simpl; auto. destruct v; simpl; f_equal; apply IH. Qed.
Lemma bor_length : forall a b, length a = length b -> length (bor a b) = length a.
Proof. intros a b L. unfold bor. rewrite map_length, combine_length. lia. Qed.
Lemma nth_bor : forall a b i, length a = length b -> nth i (bor a b) false = (nth i a false || nth i b false)%bool.
Proof. induction a as [|x a IH]; intros [|y b] i L; try discriminate; [destruct i; auto|]. destruct i; [reflexivity|]. cbn [nth]. apply IH. simpl in L. lia. Qed.
Lemma put_add : forall m (u v : vec) t, length u = length v -> embed_mask m (vadd u (vscal t v)) = vadd (embed_mask m u) (vscal t (embed_mask m v)).
Proof.
  unfold embed_mask. induction m as [|b m IH]; intros u v t L; [reflexivity|]. destruct b.
  - destruct u as [|x u], v as [|y v]; try discriminate; cbn.
    + f_equal; [lra|]. apply (IH [] [] t). auto.
    + f_equal. apply IH. simpl in L. lia.
  - cbn. f_equal; [lra|]. apply IH. auto.
Qed.
Lemma dot_put : forall m (g v : vec), length g = length m -> length v = length (keep m g) -> dot g (embed_mask m v) = dot (keep m g) v.
Proof.
  unfold embed_mask. induction m as [|b m IH]; intros [|a g] v L Lv; try discriminate; [destruct v; try discriminate; reflexivity|]. simpl in L. destruct b; cbn [keep put] in *.
  - destruct v as [|c v]; [discriminate|]. rewrite !dot_cons, IH by (simpl in Lv; lia). auto.
  - rewrite dot_cons, IH by (auto; lia). lra.
Qed.
Lemma restrict_gradient : forall n f m v g, length m = n -> length v = length (keep m g) -> is_gradient n f (embed_mask m v) g -> is_gradient (length (keep m g)) (fun b => f (embed_mask m b)) v (keep m g).
Proof.
  intros n f m v g Lm Lv (Lg & H). split; auto. intros d Ld. rewrite <- dot_put by lia. assert (L := put_length 0 m d). apply derivable_pt_lim_ext_eq with (fun t => f (vadd (embed_mask m v) (vscal t (embed_mask m d)))).
  - intros t. rewrite put_add by lia. reflexivity.
  - apply H. unfold embed_mask. lia.
Qed.

(** ** The penalty of coefficients that are zero outside a set *)
Lemma pen_formula : forall labels w x, mixed_pen labels w x = if nonneg_dec (block labels (-3) x) then if nonneg_dec (block labels (-4) x) then
  Fin (ell1 (block labels (-2) x) + ell1 (block labels (-3) x) + vsum (map (fun l => w l * norm (block labels l x)) (mixed_groups labels))) else PInf else PInf.
Proof.
  intros labels w x. unfold mixed_pen. rewrite (map_ext (fun g => group_term (w g) (block labels g x)) (fun g => Fin (w g * norm (block labels g x)))) by (intros g; unfold group_term; rewrite ell2_norm; auto).
  rewrite <- (map_map (fun g => w g * norm (block labels g x)) Fin). unfold ext_sum. cbn [app fold_right]. fold (ext_sum (map Fin (map (fun g => w g * norm (block labels g x)) (mixed_groups labels)))). rewrite ext_sum_fin. cbn [doc_seminorm].
  destruct (nonneg_dec (block labels (-3) x)); destruct (nonneg_dec (block labels (-4) x)); cbn; auto. f_equal. ring.
Qed.
Section Restrict.
Variable l : Z.
Lemma block_put_sum : forall (phi : R -> R) m labels (v : vec), phi 0 = 0 -> length labels = length m -> length v = length (keep m labels) ->
  vsum (map phi (block labels l (embed_mask m v))) = vsum (map phi (block (keep m labels) l v)).
Proof.
  intros phi m labels v Z. unfold embed_mask, block. revert labels v. induction m as [|b m IH]; intros [|c labels] v L Lv; try discriminate; [destruct v; try discriminate; reflexivity|]. simpl in L. destruct b; cbn [keep put pick] in *.
  - destruct v as [|a v]; [discriminate|]. simpl in Lv. cbn [pick]. destruct (Z.eqb l c); [cbn [map]; rewrite !vsum_cons; f_equal|]; apply IH; lia.
  - destruct (Z.eqb l c); [cbn [map]; rewrite vsum_cons, Z, Rplus_0_l|]; apply IH; auto; lia.
Qed.
Lemma block_put_nonneg : forall m labels (v : vec), length labels = length m -> length v = length (keep m labels) ->
  all_nonneg (block labels l (embed_mask m v)) <-> all_nonneg (block (keep m labels) l v).
Proof.
  unfold embed_mask, block, all_nonneg. induction m as [|b m IH]; intros [|c labels] v L Lv; try discriminate; [destruct v; try discriminate; reflexivity|]. simpl in L. destruct b; cbn [keep put pick] in *.
  - destruct v as [|a v]; [discriminate|]. simpl in Lv. cbn [pick]. specialize (IH labels v ltac:(lia) ltac:(lia)). destruct (Z.eqb l c); auto. split; intros H; inversion H; subst; constructor; tauto.
  - specialize (IH labels v ltac:(lia) ltac:(lia)). destruct (Z.eqb l c); auto. split; [intros H; inversion H; subst; tauto|]. intros H. constructor; [lra|tauto].
Qed.
Lemma block_keep_all : forall m labels (g : vec), length labels = length m -> length g = length m -> (forall i, (i < length m)%nat -> nth i labels 0%Z = l -> nth i m false = true) -> block (keep m labels) l (keep m g) = block labels l g.
Proof.
  unfold block. induction m as [|b m IH]; intros [|c labels] [|a g] L Lg H; try discriminate; auto. simpl in L, Lg. assert (H0 := H 0%nat ltac:(simpl; lia)). cbn [nth] in H0.
  specialize (IH labels g ltac:(lia) ltac:(lia) (fun i Hi => H (S i) ltac:(simpl; lia))). destruct b; cbn [keep pick]; destruct (Z.eqb_spec l c) as [E|E]; rewrite ?IH; auto. specialize (H0 (eq_sym E)). discriminate.
Qed.
End Restrict.
Lemma sqn_sum : forall v : vec, sqn v = vsum (map (fun a => a * a) v).
Proof. unfold sqn. induction v as [|a v IH]; [reflexivity|]. cbn [map]. rewrite dot_cons, vsum_cons, IH. auto. Qed.
Lemma block_put_norm : forall l m labels (v : vec), length labels = length m -> length v = length (keep m labels) -> norm (block labels l (embed_mask m v)) = norm (block (keep m labels) l v).
Proof. intros. unfold norm. rewrite !sqn_sum, block_put_sum; auto. ring. Qed.
Lemma NoDup_app_ok : forall {A} (a b : list A), NoDup a -> NoDup b -> (forall x, In x a -> ~ In x b) -> NoDup (a ++ b).
Proof. induction a as [|x a IH]; intros b Ha Hb H; auto. inversion Ha; subst. cbn. constructor; [rewrite in_app_iff; intros [C|C]; [contradiction|apply (H x); [left; auto|auto]]|]. apply IH; auto. intros y Hy. apply H. right. auto. Qed.
Lemma sum_subset : forall (F : Z -> R) A B, NoDup A -> NoDup B -> incl A B -> (forall b, In b B -> ~ In b A -> F b = 0) -> vsum (map F A) = vsum (map F B).
Proof.
  intros F A B NA NB I H. assert (P : Permutation B (A ++ filter (fun b => if in_dec Z.eq_dec b A then false else true) B)).
  { apply NoDup_Permutation; auto.
    - apply NoDup_app_ok; auto; [apply NoDup_filter; auto|]. intros x Hx Hf. apply filter_In in Hf. destruct (in_dec Z.eq_dec x A); [destruct Hf; discriminate|contradiction].
    - intros x. rewrite in_app_iff, filter_In. destruct (in_dec Z.eq_dec x A) as [i|i]; [split; auto|]. split; [auto|]. intros [?|[? _]]; auto; contradiction. }
  assert (E : vsum (map F B) = vsum (map F (A ++ filter (fun b => if in_dec Z.eq_dec b A then false else true) B))) by (apply vsum_perm, Permutation_map; auto).
  rewrite E, map_app, vsum_app. assert (Z0 : vsum (map F (filter (fun b => if in_dec Z.eq_dec b A then false else true) B)) = 0); [|lra].
  assert (Q : forall L, (forall b, In b L -> F b = 0) -> vsum (map F L) = 0). { induction L as [|b L IH]; intros K; [reflexivity|]. cbn [map]. rewrite vsum_cons, (K b), IH; [lra| |left; auto]. intros; apply K; right; auto. }
  apply Q. intros b Hb. apply filter_In in Hb. destruct Hb as (Hb & D). apply H; auto. destruct (in_dec Z.eq_dec b A); [discriminate|auto].
Qed.
Lemma keep_in : forall {A} m (l : list A) x, In x (keep m l) -> In x l.
Proof. induction m as [|b m IH]; intros [|a l] x H; simpl in *; try contradiction; auto. destruct b; [destruct H; auto|]; right; eauto. Qed.
Lemma groups_keep : forall m labels g, In g (mixed_groups (keep m labels)) -> In g (mixed_groups labels).
Proof. intros m labels g H. unfold mixed_groups, distinct in *. apply nodup_In, filter_In in H. apply nodup_In, filter_In. destruct H as (H & R). split; auto. eapply keep_in; eauto. Qed.
Lemma block_absent : forall labels l (x : vec), ~ In l labels -> block labels l x = [].
Proof. unfold block. induction labels as [|c labels IH]; intros l [|a x] N; auto. cbn [pick]. destruct (Z.eqb_spec l c) as [E|E]; [destruct N; left; auto|]. apply IH. intros C. apply N. right. auto. Qed.
Lemma pen_put : forall labels given m (v : vec), (forall g, In g (mixed_groups (keep m labels)) -> group_weight given (keep m labels) g = group_weight given labels g) -> length labels = length m -> length v = length (keep m labels) ->
  mixed_pen labels (group_weight given labels) (embed_mask m v) = mixed_pen (keep m labels) (group_weight given (keep m labels)) v.
Proof.
  intros labels given m v G L Lv. rewrite !pen_formula. assert (A3 := block_put_nonneg (-3) m labels v L Lv). assert (A4 := block_put_nonneg (-4) m labels v L Lv).
  assert (E : ell1 (block labels (-2) (embed_mask m v)) + ell1 (block labels (-3) (embed_mask m v)) + vsum (map (fun l => group_weight given labels l * norm (block labels l (embed_mask m v))) (mixed_groups labels)) =
              ell1 (block (keep m labels) (-2) v) + ell1 (block (keep m labels) (-3) v) + vsum (map (fun l => group_weight given (keep m labels) l * norm (block (keep m labels) l v)) (mixed_groups (keep m labels)))).
  { unfold ell1. rewrite !(block_put_sum _ Rabs) by (auto using Rabs_R0). f_equal. symmetry. erewrite map_ext_in; [apply (sum_subset (fun l => group_weight given labels l * norm (block labels l (embed_mask m v))))|].
    - apply NoDup_nodup.
    - apply NoDup_nodup.
    - intros g Hg. eapply groups_keep; eauto.
    - intros b Hb Nb. rewrite block_put_norm by auto. rewrite block_absent; [unfold norm, sqn, dot; cbn; rewrite sqrt_0; ring|]. intros C. apply Nb. unfold mixed_groups, distinct in *. apply nodup_In, filter_In. apply nodup_In, filter_In in Hb. tauto.
    - intros g Hg. cbv beta. rewrite block_put_norm by auto. f_equal. apply G. auto. }
  rewrite E. destruct (nonneg_dec (block labels (-3) (embed_mask m v))), (nonneg_dec (block (keep m labels) (-3) v)); try tauto. destruct (nonneg_dec (block labels (-4) (embed_mask m v))), (nonneg_dec (block (keep m labels) (-4) v)); tauto.
Qed.

(** ** An accepted solution of a restricted problem *)
Lemma any_false : forall m, any m = false <-> m = repeat false (length m).
Proof. induction m as [|b m IH]; [split; auto|]. unfold any in *. cbn. destruct b; cbn; [split; [discriminate|intros H; discriminate]|]. rewrite IH. split; [intros ->; rewrite repeat_length; auto|]. intros H. injection H. auto. Qed.
Lemma enet_zero : forall labels g s, length g = length labels -> length s = length labels -> enet_add (0, 0) labels g s = g.
Proof.
  induction labels as [|l labels IH]; intros [|a g] [|b s] Lg Ls; try discriminate; auto. unfold enet_add in *. cbn. rewrite IH by (simpl in *; lia). f_equal. destruct (Z.eqb l (-1)); lra.
Qed.
Lemma enet_zero_access : forall lam, enet_access lam (0, 0) = (0, 0).
Proof. intros. unfold enet_access. cbn. f_equal; ring. Qed.
Lemma enet_length : forall q labels g s, length g = length labels -> length s = length labels -> length (enet_add q labels g s) = length labels.
Proof. intros. unfold enet_add. rewrite map_length, !combine_length. lia. Qed.
Lemma initial_nth : forall P i, (i < mp_size P)%nat -> nth i (initial_active P) false = (Z.eqb (nth i (mp_labels P) 0%Z) (-1) || Z.eqb (nth i (mp_labels P) 0%Z) (-4))%bool.
Proof. intros P i Hi. unfold initial_active. set (F := fun l : Z => (Z.eqb l (-1) || Z.eqb l (-4))%bool). rewrite (nth_indep _ false (F 0%Z)) by (rewrite map_length; auto). rewrite map_nth. auto. Qed.
Lemma given_ok : forall P m, weights_given P -> weights_ok (keep m (mp_labels P)) (mp_weights P).
Proof. intros P m W g Hg. destruct (W g (groups_keep _ _ _ Hg)) as (r & E & Hr). unfold group_weight. rewrite E. auto. Qed.
Lemma given_ok' : forall P, weights_given P -> weights_ok (mp_labels P) (mp_weights P).
Proof. intros P W g Hg. destruct (W g Hg) as (r & E & Hr). unfold group_weight. rewrite E. auto. Qed.
Lemma restricted_exact : forall P set lam sub, right_gradient P -> weights_ok (keep set (mp_labels P)) (mp_weights P) ->
  (forall g, In g (mixed_groups (keep set (mp_labels P))) -> group_weight (mp_weights P) (keep set (mp_labels P)) g = group_weight (mp_weights P) (mp_labels P) g) -> length set = mp_size P -> 0 < lam -> restricted_minimizer P set lam sub ->
  let s := embed_mask set sub in exists r, path_pen P s = Fin r /\ dot (mp_grad P s) s + lam * r = 0 /\ (covers P set -> Forall (fun b => b = 0) (block (mp_labels P) (-1) (mp_grad P s))).
Proof.
  intros P set lam sub Hg Hw Hw' Ls Hl M s. assert (Lsub : length sub = length (keep set (mp_labels P))) by apply M. assert (Lsn : length s = mp_size P) by (unfold s, embed_mask; rewrite put_length; auto).
  assert (G := Hg s Lsn). assert (Lg : length (mp_grad P s) = mp_size P) by apply G. assert (Lk : length (keep set (mp_grad P s)) = length (keep set (mp_labels P))) by (apply keep_length; unfold mp_size in *; lia).
  assert (R := restrict_gradient (mp_size P) (mp_func P) set sub (mp_grad P s) Ls ltac:(lia) G). rewrite Lk in R.
  assert (St := minimizer_stat _ _ _ _ lam sub Hw Hl R M). destruct (stat_labels (keep set (mp_labels P)) (mixed_groups (keep set (mp_labels P))) (mp_weights P) (Permutation_refl _) Hw lam _ _ St) as (F & _).
  destruct St as (_ & _ & r & Er & _ & Eq). exists r. split; [|split].
  - unfold path_pen, s. rewrite pen_put; auto.
  - unfold s at 2. rewrite dot_put by lia. exact Eq.
  - intros (_ & C). rewrite block_keep_all in F; [| unfold mp_size in *; lia | lia |].
    + assert (Z := F). assert (Z' : sqn (block (mp_labels P) (-1) (mp_grad P s)) = 0) by (rewrite <- norm_sq, Z; ring). apply sqn_eq_zero in Z'. rewrite Z'. unfold zeros. apply Forall_forall. intros x Hx. apply repeat_spec in Hx. auto.
    + intros i Hi E. apply C. rewrite initial_nth by lia. rewrite E. reflexivity.
Qed.
Lemma given_same : forall P m, weights_given P -> forall g, In g (mixed_groups (keep m (mp_labels P))) -> group_weight (mp_weights P) (keep m (mp_labels P)) g = group_weight (mp_weights P) (mp_labels P) g.
Proof. intros P m W g Hg. destruct (W g (groups_keep _ _ _ Hg)) as (r & E & _). unfold group_weight. rewrite E. auto. Qed.
Lemma accepted_near : forall P set lam sub, convex_on (mp_size P) (mp_func P) -> right_gradient P -> weights_given P -> covers P set -> 0 < lam -> restricted_minimizer P set lam sub ->
  let s := embed_mask set sub in any (ml_check_KKT (mp_atom (mp_labels P) (mp_weights P) lam) (mp_grad P s) s lam mtol) = false -> near_minimizer P lam mtol s.
Proof.
  intros P set lam sub Hc Hg Hw Cv Hl M s A. assert (Lsn : length s = mp_size P) by (unfold s, embed_mask; rewrite put_length; apply Cv). assert (G := Hg s Lsn). assert (Lg : length (mp_grad P s) = mp_size P) by apply G.
  destruct (restricted_exact P set lam sub Hg (given_ok P set Hw) (given_same P set Hw) (proj1 Cv) Hl M) as (r & Er & Eq & F). specialize (F Cv). fold s in Er, Eq, F. exists r. split; auto. intros y t Ly Et.
  apply any_false in A. rewrite check_length in A by auto. cbn [ml_labels mp_atom] in A.
  assert (NR := proj1 (nothing_failing (mp_atom (mp_labels P) (mp_weights P) lam) (mp_grad P s) s lam mtol (Permutation_refl _) (given_ok' P Hw) Lg Lsn) A). cbn [ml_labels ml_weights mp_atom] in NR.
  assert (Lo := sound_lower (mp_labels P) (mp_weights P) (given_ok' P Hw) lam mtol (mp_grad P s) s Hl Lg Lsn NR F y t Ly Et).
  assert (T := convex_tangent (mp_size P) (mp_func P) s (mp_grad P s) y Hc G Lsn Ly). rewrite dot_sub_r in T by congruence. nra.
Qed.

(** ** The loop *)
Definition inv (P : mpath) (st : mstate) : Prop := covers P (ms_ever st) /\ length (ms_fail st) = mp_size P /\ length (ms_gsol st) = mp_size P.
Lemma strong_size : forall P lcur lnew g slope, length g = mp_size P -> length (ml_strong_set (mp_atom (mp_labels P) (mp_weights P) lnew) lcur lnew g slope) = mp_size P.
Proof. intros. apply strong_length. auto. Qed.
Lemma covers_bor : forall P a b, covers P a -> length b = mp_size P -> covers P (bor a b).
Proof. intros P a b (La & H) Lb. split; [rewrite bor_length; lia|]. intros i Hi. rewrite nth_bor by lia. rewrite (H i Hi). auto. Qed.
(** what a pass does *)
Lemma mtry_spec : forall P S lcur lnew st ok st1, grad_lengths P -> inv P st -> mtry P S lcur lnew st = (ok, st1) ->
  inv P st1 /\ (exists set, covers P set /\ ms_sol st1 = embed_mask set (S (ms_calls st) (ms_sol st) set lnew)) /\ length (ms_sol st1) = mp_size P /\
  (ms_enet st = (0, 0) -> ms_enet st1 = (0, 0)) /\
  (ok = true -> ms_enet st = (0, 0) -> any (ml_check_KKT (mp_atom (mp_labels P) (mp_weights P) lnew) (mp_grad P (ms_sol st1)) (ms_sol st1) lnew mtol) = false).
Proof.
  intros P S lcur lnew st ok st1 Hgl (Cv & Lf & Lgs) E. unfold mtry in E. set (set := bor (ms_ever st) (ms_fail st)) in *. assert (Cs : covers P set) by (apply covers_bor; auto).
  set (sub := S (ms_calls st) (ms_sol st) set lnew) in *. set (sol := embed_mask set sub) in *. assert (Lsol : length sol = mp_size P) by (unfold sol, embed_mask; rewrite put_length; apply Cs).
  set (strong := ml_strong_set _ lcur lnew (ms_gsol st) 1) in *. assert (Lst : length strong = mp_size P) by (apply strong_size; auto).
  set (q1 := enet_access lnew (ms_enet st)) in *. set (sfail := ml_check_KKT _ _ (keep strong sol) lnew mtol) in *.
  assert (Q : ms_enet st = (0, 0) -> q1 = (0, 0)) by (intros Q; unfold q1; rewrite Q; apply enet_zero_access).
  destruct (any sfail).
  - injection E as <- <-. cbn [ms_sol ms_gsol ms_fail ms_ever ms_enet]. split; [|split; [|split; [|split]]]; auto; [|exists set; auto|discriminate]. split; auto. cbn [ms_sol ms_gsol ms_fail ms_ever ms_enet]. split; auto. rewrite bor_length; rewrite ?put_length; lia.
  - set (q2 := enet_access lnew q1) in *. assert (Lg : length (mp_gradient P q2 sol) = mp_size P) by (unfold mp_gradient; apply enet_length; auto; rewrite Hgl; auto).
    set (fail := ml_check_KKT _ (mp_gradient P q2 sol) sol lnew mtol) in *. assert (Lfl : length fail = mp_size P) by (apply check_length; auto).
    destruct (any fail) eqn:Ea; injection E as <- <-; cbn [ms_sol ms_gsol ms_fail ms_ever ms_enet].
    + split; [|split; [|split; [|split]]]; auto; [|exists set; auto| |discriminate].
      * split; [apply covers_bor; auto|auto].
      * intros Z. unfold q2. rewrite (Q Z). apply enet_zero_access.
    + split; [|split; [|split; [|split]]]; auto; [|exists set; auto| |].
      * split; [apply covers_bor; auto; cbn; unfold nonzeros; rewrite map_length; auto|auto].
      * intros Z. unfold q2. rewrite (Q Z). apply enet_zero_access.
      * intros _ Z. unfold fail, mp_gradient, q2 in Ea. rewrite (Q Z), enet_zero_access, enet_zero in Ea by (auto; apply Hgl; auto). exact Ea.
Qed.
Lemma mtries_spec : forall P S lcur lnew fuel num st, grad_lengths P -> inv P st -> (num < 10)%nat -> (10 - num <= fuel)%nat ->
  exists pt st', mtries fuel P S lcur lnew num st = Ok (pt, st') /\ inv P st' /\ mpt_lagrange pt = lnew /\ good_point P S pt /\
    (ms_enet st = (0, 0) -> ms_enet st' = (0, 0) /\ (mpt_warned pt = false -> passes_check P pt)).
Proof.
  intros P S lcur lnew fuel. induction fuel as [|fuel IH]; intros num st Hgl I Hn Hf; [lia|]. cbn [mtries]. destruct (mtry P S lcur lnew st) as [ok st1] eqn:E.
  destruct (mtry_spec P S lcur lnew st ok st1 Hgl I E) as (I1 & Hset & Ls & Z1 & Zok). destruct Hset as (set & Cs & Es). destruct ok.
  - eexists _, _. split; [reflexivity|]. split; auto. split; auto. cbn [mpt_lagrange mpt_sol mpt_warned mpt_tries]. split; [|].
    + split; [exists set, (ms_calls st), (ms_sol st); auto|]. cbn. split; auto. split; [lia|discriminate].
    + intros Z. split; auto. intros _. unfold passes_check. cbn [mpt_lagrange mpt_sol]. specialize (Zok eq_refl Z). apply any_false in Zok. rewrite check_length in Zok by (auto; apply Hgl; auto). exact Zok.
  - destruct (Nat.eqb (Datatypes.S num mod 5) 0) eqn:E5.
    + set (st2 := mk_mstate _ _ _ _ _ _). assert (I2 : inv P st2). { destruct I1 as (A & B & C). split; auto. split; auto. cbn. unfold mp_gradient. apply enet_length; auto; apply Hgl; auto. }
      assert (Z2 : ms_enet st = (0, 0) -> ms_enet st2 = (0, 0)) by (intros Z; cbn; rewrite (Z1 Z); apply enet_zero_access).
      destruct (Nat.leb 10 (Datatypes.S num)) eqn:E10.
      * apply Nat.leb_le in E10. assert (num = 9)%nat by lia. subst num. eexists _, _. split; [reflexivity|]. split; auto. split; auto. cbn [mpt_lagrange mpt_sol mpt_warned mpt_tries]. split; [|intros Z; split; [auto|discriminate]].
        split; [exists set, (ms_calls st), (ms_sol st); auto|]. cbn. split; auto. split; [lia|auto].
      * apply Nat.leb_gt in E10. destruct (IH (Datatypes.S num) st2 Hgl I2 ltac:(lia) ltac:(lia)) as (pt & st' & E' & A & B & C & D). exists pt, st'. split; [auto|]. split; [auto|]. split; [auto|]. split; [auto|]. intros Z. apply D. auto.
    + assert (Datatypes.S num <> 10)%nat by (intros C; rewrite C in E5; discriminate). destruct (IH (Datatypes.S num) st1 Hgl I1 ltac:(lia) ltac:(lia)) as (pt & st' & E' & A & B & C & D). exists pt, st'. split; [auto|]. split; [auto|]. split; [auto|]. split; [auto|]. intros Z. apply D. auto.
Qed.
Lemma mrun_spec : forall P S fuel ls lcur st, grad_lengths P -> inv P st -> (10 <= fuel)%nat ->
  exists pts, mrun fuel P S lcur ls st = Ok pts /\ map mpt_lagrange pts = ls /\ Forall (good_point P S) pts /\ (ms_enet st = (0, 0) -> Forall (fun pt => mpt_warned pt = false -> passes_check P pt) pts).
Proof.
  intros P S fuel. induction ls as [|l ls IH]; intros lcur st Hgl I Hf; cbn [mrun]; [exists []; auto|].
  destruct (mtries_spec P S lcur l fuel 0 st Hgl I ltac:(lia) ltac:(lia)) as (pt & st' & -> & I' & El & Gd & Z). cbn [rbind fst snd]. destruct (IH l st' Hgl I' Hf) as (pts & -> & Em & F & Zs). cbn [rbind].
  exists (pt :: pts). split; auto. split; [cbn; congruence|]. split; [constructor; auto|]. intros Q. destruct (Z Q) as (Q' & K). constructor; auto.
Qed.
