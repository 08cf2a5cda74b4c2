(** The epigraph cones of the nuclear and operator norms: proofs. *)
From Coq Require Import Reals List Lra Lia Psatz Arith Bool.
From Verif Require Import M_affine P_affine P_affine2 Vec Spec SpecLoss M_quad M_prox M_semi M_shift SpecAtom SpecBase SpecMode M_mode SpecModed SpecPart SpecBlock M_cones SpecCone P_quad P_calc P_sep P_cv P_prox P_feas P_semi P_shift P_conj P_cones P_gauge P_part P_mixed M_linear SpecLinear P_linear SpecSvd P_svd1 P_svd2 P_svd3 M_svd SpecSvd2 P_svd4.
From Verif Require P_block P_block3 P_group2.
Import ListNotations.
Local Open Scope R_scope.

Section TransferLast.
Variables (n : nat) (B : list vec).
Hypothesis O : orthonormal n B.
Local Notation syn d := (mat_tvec n B d) (only parsing).
Lemma sqn_last : forall (x y : vec) s t, length x = length y -> sqn (vsub (x ++ [s]) (y ++ [t])) = sqn (vsub x y) + (s - t) * (s - t).
Proof. intros x y s t L. rewrite (vsub_app1 (length y)) by auto. unfold sqn. rewrite (dot_app1 (length (vsub x y))) by auto. auto. Qed.
Lemma transfer_last : forall (S Sk : vec -> Prop) d t p s, length d = length B -> length p = length B -> (forall a w, length a = length B -> Sk (a ++ [w]) -> S (syn a ++ [w])) ->
  (forall V w, length V = n -> S (V ++ [w]) -> Sk (mat_vec B V ++ [w])) -> is_proj (Datatypes.S (length B)) Sk (d ++ [t]) (p ++ [s]) -> is_proj (Datatypes.S n) S (syn d ++ [t]) (syn p ++ [s]).
Proof.
  intros S Sk d t p s Ld Lp H1 H2 (_ & Ip & H). pose proof (syn_length n B O) as LS. split; [apply len_app1, LS|]. split; [auto|]. intros Z LZ IZ. destruct (split_app1 n Z LZ) as (V & w & -> & LV).
  pose proof (mv_length B V) as Lm. destruct (H _ (len_app1 _ _ w Lm) (H2 V w LV IZ)) as [Ha Hb]. rewrite !sqn_last in * by (rewrite ?LS; congruence).
  assert (E : sqn (vsub (syn d) (syn p)) = sqn (vsub d p)). { rewrite (syn_split n B O) by (auto; apply LS). rewrite (mv_tvec n B O) by auto. rewrite vsub_self, sqn_zeros. ring. }
  rewrite E, (syn_split n B O) by auto. pose proof (sqn_nonneg (vsub V (syn (mat_vec B V)))) as N. split; [lra|]. intros E'. assert (Q := Hb ltac:(lra)). apply app_inj_tail in Q. destruct Q as [Q ->]. rewrite <- Q. f_equal.
  apply vsub_eq_zero; [rewrite LS; auto|]. rewrite <- Q in E'. lra.
Qed.
End TransferLast.

Definition vcone (k : escl) : coneclass := match k with ENuclear => KL1 | ENuclearPolar => KL1Polar | EOperator => KLinf | EOperatorPolar => KLinfPolar end.
Lemma values_cone : forall k D, ec_values k D = cone_prox (vcone k) D. Proof. destruct k; reflexivity. Qed.
Lemma in_econe_app : forall k r c X t, in_econe k r c (X ++ [t]) <-> match k with ENuclear => nuc_norm r c X <= t | ENuclearPolar => op_norm r c X <= - t | EOperator => op_norm r c X <= t | EOperatorPolar => nuc_norm r c X <= - t end.
Proof. intros. destruct k; unfold in_econe; rewrite removelast_app1, last_app1; tauto. Qed.
Lemma in_cone_app : forall k D t, in_cone (vcone k) (D ++ [t]) <-> match k with ENuclear => ell1 D <= t | ENuclearPolar => ellinf D <= - t | EOperator => ellinf D <= t | EOperatorPolar => ell1 D <= - t end.
Proof. intros. destruct k; cbn [vcone in_cone]; rewrite init_app, lst_app; tauto. Qed.
Lemma split_ok : forall {A} r c X t (f : vec -> R -> res A), length X = (r * c)%nat -> ec_split r c (X ++ [t]) f = f X t.
Proof.
  intros A r c X t f L. unfold ec_split. destruct (X ++ [t]) eqn:E; [destruct X; discriminate|]. rewrite <- E, removelast_app1, last_app1. destruct (Nat.eq_dec (length X) (r * c)); congruence.
Qed.
Section Svd.
Variables (r c : nat) (svd : svd_fun).
Hypothesis Hr : (1 <= r)%nat.
Hypothesis Hc : (1 <= c)%nat.
Hypothesis OK : svd_ok r c svd.
Local Notation n := (r * c)%nat (only parsing).
Theorem ec_prox_ok : forall k x, length x = S n -> exists e, ec_prox k r c svd x = Ok e /\ is_proj (S n) (in_econe k r c) x e.
Proof.
  intros k x Lx. destruct (split_app1 n x Lx) as (X & t & -> & LX). destruct (svd_at r c svd OK X LX) as (U & D & V & Es & Sv).
  unfold ec_prox. rewrite split_ok by auto. rewrite Es, values_cone. pose proof (sD r c X U V D Sv) as LD. pose proof (sBk r c X U V D Sv) as Lk.
  assert (LD1 : length (D ++ [t]) = S (length (rank1s U V))) by (apply len_app1; congruence).
  destruct (cone_prox_correct (vcone k) (S (length (rank1s U V))) (D ++ [t])) as (p & Ep & Hp).
  { unfold cone_dim. replace (is_epigraph (vcone k)) with true by (destruct k; auto). lia. } { auto. } { destruct k; discriminate. } { destruct k; discriminate. }
  rewrite Ep. cbn [rmap]. eexists. split; [reflexivity|]. assert (Lp : length p = S (length (rank1s U V))) by apply Hp. destruct (split_app1 _ p Lp) as (z & s & -> & Lz). rewrite removelast_app1, last_app1.
  rewrite (rec r c X U V D Sv) by congruence. rewrite (sX r c X U V D Sv) at 1. pose proof (sUV r c X U V D Sv) as Luv. pose proof (sU r c X U V D Sv) as Lu. pose proof (sv_ou _ _ _ _ _ _ Sv) as Ou. pose proof (sv_ov _ _ _ _ _ _ Sv) as Ov.
  refine (transfer_last n (rank1s U V) (sB r c X U V D Sv) (in_econe k r c) (in_cone (vcone k)) D t z s _ Lz _ _ Hp); [congruence| |].
  - intros a w La I. apply in_econe_app. apply -> in_cone_app in I. assert (La' : length a = length U) by congruence. fold (usv n U a V). destruct k; rewrite ?nuc_usv, ?op_usv by auto; auto.
  - intros Y w LY I. apply in_cone_app. apply -> in_econe_app in I. pose proof (coefs_nuc r c U V Luv Ou Ov Y LY) as C1. pose proof (op_nonneg r c Y LY) as C3.
    assert (C2 : ellinf (mat_vec (rank1s U V) Y) <= op_norm r c Y) by (apply ellinf_le; auto; apply (coefs_op r c U V); auto). unfold coefs in C1. destruct k; cbv iota in I |- *; [exact (Rle_trans _ _ _ C1 I)|exact (Rle_trans _ _ _ C2 I)|exact (Rle_trans _ _ _ C2 I)|exact (Rle_trans _ _ _ C1 I)].
Qed.
Lemma D_app : forall X U D V, is_svd r c X U D V -> nuc_norm r c X = vsum D /\ op_norm r c X = nth 0 D 0 /\ np_max D = Ok (op_norm r c X) /\ vsum D = nth 0 D 0 + vsum (tl D) /\ vabs (tl D) = tl D.
Proof.
  intros X U D V Sv. assert (LX : length X = n) by (rewrite (sv_eq _ _ _ _ _ _ Sv); apply usv_length; [apply (sUV r c X U V D Sv)|apply Sv|apply Sv]).
  pose proof (val_X r c X U V D Sv SNuclear) as E1. pose proof (val_X r c X U V D Sv SOperator) as E2. cbn in E1, E2. injection E1 as E1. injection E2 as E2. pose proof (D_abs r c X U V D Sv) as A.
  unfold ell1 in E1. change (map Rabs D) with (vabs D) in E1. rewrite A in E1. pose proof (ellinf_attained D (sv_pos _ _ _ _ _ _ Sv) (sv_desc _ _ _ _ _ _ Sv)) as M.
  split; auto. split; [congruence|]. split; [rewrite E2; apply (D_max r c Hr Hc X U V D LX Sv)|]. pose proof (sv_pos _ _ _ _ _ _ Sv) as P. destruct D as [|a D']; cbn [nth tl].
  - split; [unfold vsum; cbn; ring|reflexivity].
  - rewrite vsum_cons. split; auto. unfold vabs in A. cbn [map] in A. injection A as _ A. exact A.
Qed.
Theorem ec_test : forall k X t, length X = n -> ec_constraint k r c svd (X ++ [t]) = Ok (ok_or_inf (match k with
   | ENuclear => rleb (nuc_norm r c X - op_norm r c X) ((1 + tol) * t)
   | ENuclearPolar => rleb (op_norm r c X) ((1 + tol) * - t)
   | EOperator => rleb (op_norm r c X) ((1 + tol) * t)
   | EOperatorPolar => rleb (nuc_norm r c X) ((1 + tol) * - t) end)).
Proof.
  intros k X t LX. unfold ec_constraint. rewrite split_ok by auto. destruct (svd_at r c svd OK X LX) as (U & D & V & Es & Sv). rewrite Es. destruct (D_app X U D V Sv) as (E1 & E2 & E3 & E4 & E5).
  destruct k; rewrite ?E3; cbn [rmap]; auto.
  - rewrite E5. replace (vsum (tl D)) with (nuc_norm r c X - op_norm r c X) by lra. auto.
  - rewrite E1. auto.
Qed.
End Svd.
Lemma econe_fun_cases : forall k r c v, econe_fun k r c v = Fin 0 /\ in_econe k r c v \/ econe_fun k r c v = PInf /\ ~ in_econe k r c v.
Proof. intros. unfold econe_fun. destruct (in_econe_dec k r c v); auto. Qed.
Theorem econe_proximal_ok : forall n a p svd, econe_wf n a -> (1 <= ec_r a)%nat -> (1 <= ec_c a)%nat -> svd_ok (ec_r a) (ec_c a) svd -> q_shape n p -> 0 < coef (b_quadratic (ec_base a)) + coef p -> some_array (ec_base a) p ->
  exists v, econe_proximal svd a (AQuad p) = Ok v /\ prox_spec n (econe_fun (ec_k a) (ec_r a) (ec_c a)) (ec_base a) p v.
Proof.
  intros n a p svd (En & Hw) Hr Hc OK Hp HL Hv. apply shifted_prox_correct; auto. intros x Lx. assert (Lx' : length x = S (ec_r a * ec_c a)) by lia. destruct (ec_prox_ok _ _ svd Hr Hc OK (ec_k a) x Lx') as (e & E & He). exists e. split; auto.
  replace n with (S (ec_r a * ec_c a)) in * by lia. apply indicator_argmin with (S := in_econe (ec_k a) (ec_r a) (ec_c a)); auto. apply econe_fun_cases.
Qed.
Lemma econe_epi : forall k r c v, econe_fun k r c v = match k with
  | ENuclear => epi_fun (nuc_fun r c) v | ENuclearPolar => epi_neg_fun (op_fun r c) v | EOperator => epi_fun (op_fun r c) v | EOperatorPolar => epi_neg_fun (nuc_fun r c) v end.
Proof. intros. unfold econe_fun. destruct (in_econe_dec k r c v) as [I|I]; destruct k; unfold in_econe in I; unfold epi_fun, epi_neg_fun, nuc_fun, op_fun; destruct (Rle_dec _ _); tauto. Qed.
Lemma fenchel_ext : forall n f g u s, (forall x, length x = n -> f x = g x) -> is_fenchel n f u s -> is_fenchel n g u s.
Proof.
  intros n f g u s E H. destruct s as [v|]; cbn in *.
  - destruct H as [H1 H2]. split; [intros x t Lx Ex; apply H1; auto; rewrite E; auto|]. intros e He. destruct (H2 e He) as (x & t & Lx & Ex & Hx). exists x, t. rewrite <- E by auto. auto.
  - intros M. destruct (H M) as (x & t & Lx & Ex & Hx). exists x, t. rewrite <- E by auto. auto.
Qed.
Lemma neg_opp : forall n h x, even_gauge n h -> length x = S n -> epi_fun h (vopp x) = epi_neg_fun h x /\ epi_neg_fun h (vopp x) = epi_fun h x.
Proof.
  intros n h x He Lx. destruct (split_app1 n x Lx) as (v & t & -> & Lv). rewrite vopp_app. unfold epi_fun, epi_neg_fun. cbn [vopp map]. rewrite !removelast_app1, !last_app1. change (map Ropp v) with (vopp v). rewrite He by auto. rewrite Ropp_involutive. auto.
Qed.
Lemma epi_neg_fenchel : forall n h h' u, polar_pair n h h' -> even_gauge n h -> even_gauge n h' -> length u = S n -> is_fenchel (S n) (epi_neg_fun h) u (epi_fun h' u).
Proof.
  intros n h h' u P He He' Lu. rewrite <- (proj2 (neg_opp n h' u He' Lu)). apply fenchel_ext with (f := fun x => epi_fun h (vopp x)); [intros x Lx; apply (neg_opp n); auto|].
  apply P_group2.fenchel_opp. apply epi_fenchel; auto. rewrite vopp_length. auto.
Qed.
Lemma econe_fenchel : forall k r c u, length u = S (r * c) -> is_fenchel (S (r * c)) (econe_fun k r c) u (econe_fun (epair k) r c u).
Proof.
  intros k r c u Lu. rewrite econe_epi. apply fenchel_ext with (f := match k with
  | ENuclear => epi_fun (nuc_fun r c) | ENuclearPolar => epi_neg_fun (op_fun r c) | EOperator => epi_fun (op_fun r c) | EOperatorPolar => epi_neg_fun (nuc_fun r c) end).
  { intros x _. rewrite econe_epi. destruct k; auto. }
  destruct k; cbn [epair].
  - apply epi_fenchel; auto. apply nuc_op_polar.
  - apply epi_neg_fenchel; auto; [apply op_nuc_polar|apply op_even|apply nuc_even].
  - apply epi_fenchel; auto. apply op_nuc_polar.
  - apply epi_neg_fenchel; auto; [apply nuc_op_polar|apply nuc_even|apply op_even].
Qed.
Theorem econe_conjugate_ok : forall n a, econe_wf n a -> coef (b_quadratic (ec_base a)) = 0 ->
  exists d, econe_conjugate a = Ok d /\ ec_k d = epair (ec_k a) /\ ec_r d = ec_r a /\ ec_c d = ec_c a /\ econe_wf n d /\
    (forall u, length u = n -> is_fenchel n (base_doc n (econe_fun (ec_k a) (ec_r a) (ec_c a)) (ec_base a)) u (base_doc n (econe_fun (ec_k d) (ec_r d) (ec_c d)) (ec_base d) u)) /\
    exists e, econe_conjugate d = Ok e /\ ec_k e = ec_k a /\ ec_r e = ec_r a /\ ec_c e = ec_c a /\ econe_wf n e /\
      forall v, length v = n -> base_doc n (econe_fun (ec_k e) (ec_r e) (ec_c e)) (ec_base e) v = base_doc n (econe_fun (ec_k a) (ec_r a) (ec_c a)) (ec_base a) v.
Proof.
  intros n a (En & Hw) H0. set (h := econe_fun (ec_k a) (ec_r a) (ec_c a)). set (h' := econe_fun (epair (ec_k a)) (ec_r a) (ec_c a)).
  destruct (conjugate_base_fenchel n h h' (ec_base a) Hw H0) as (d & E & W & F). { intros u Lu. replace n with (S (ec_r a * ec_c a)) in * by lia. apply econe_fenchel; auto. }
  destruct (conjugate_base_twice n h (ec_base a) Hw H0) as (d' & e & E1 & E2 & We & H). assert (d' = d) by congruence. subst d'.
  exists (mk_econe (epair (ec_k a)) (ec_r a) (ec_c a) d). unfold econe_conjugate. rewrite E. cbn [ec_k ec_r ec_c ec_base]. do 4 (split; auto). split; [split; auto|]. split; auto. rewrite E2. eexists. split; [reflexivity|]. cbn [ec_k ec_r ec_c ec_base].
  assert (EP : epair (epair (ec_k a)) = ec_k a) by (destruct (ec_k a); auto). rewrite EP. do 3 (split; auto). split; [split; auto|]. auto.
Qed.
Theorem econe_conjugate_name : forall a, coef (b_quadratic (ec_base a)) <> 0 -> econe_conjugate a = Err NameError.
Proof. intros a H. unfold econe_conjugate, conjugate_base. destruct (Req_EM_T _ 0); [tauto|auto]. Qed.
Theorem econe_copy_ok : forall n a, econe_wf n a -> econe_copy a = a.
Proof. intros n [k r c g] (En & Hw). cbn in *. unfold econe_copy, new_econe. cbn [ec_k ec_r ec_c ec_base]. rewrite En, P_block3.new_base_same by auto. auto. Qed.
Theorem econe_objective_ok : forall n a x svd, econe_wf n a -> (1 <= ec_r a)%nat -> (1 <= ec_c a)%nat -> svd_ok (ec_r a) (ec_c a) svd -> length x = n ->
  let y := vsub x (base_off n (ec_base a)) in
  econe_objective svd a x false = Ok (base_doc n (fun _ => Fin 0) (ec_base a) x) /\
  (in_econe (ec_k a) (ec_r a) (ec_c a) y -> econe_objective svd a x true = Ok (base_doc n (econe_fun (ec_k a) (ec_r a) (ec_c a)) (ec_base a) x)) /\
  (ec_k a <> ENuclear -> ~ slack_econe (ec_k a) (ec_r a) (ec_c a) y -> econe_objective svd a x true = Ok PInf).
Proof.
  intros n a x svd (En & Hw) Hr Hc OK Lx y. pose proof (base_off_length n _ Hw) as Lo. assert (Ly : length y = S (ec_r a * ec_c a)) by (unfold y; vlen).
  assert (Q : q_func (b_quadratic (ec_base a)) x = quad_fun (coef (b_quadratic (ec_base a))) (fbcast n (center (b_quadratic (ec_base a)))) (fbcast n (linear_term (b_quadratic (ec_base a)))) (constant_term (b_quadratic (ec_base a))) x).
  { apply q_func_doc; auto. destruct Hw as (_ & _ & H). auto. }
  unfold econe_objective, shifted_objective, base_doc. rewrite (base_apply_offset_eq n) by auto. rewrite Q. fold y. split; [reflexivity|]. destruct (split_app1 _ y Ly) as (X & t & Ey & LX). rewrite Ey.
  rewrite (ec_test _ _ svd Hr Hc OK (ec_k a) X t LX). pose proof (op_nonneg _ _ X LX) as N1. pose proof (nuc_nonneg _ _ X LX) as N2. assert (T : 0 < / 10 ^ 5) by (apply Rinv_0_lt_compat, pow_lt; lra). split.
  - intros I. unfold econe_fun. destruct (in_econe_dec _ _ _ (X ++ [t])) as [_|N]; [|tauto]. apply -> in_econe_app in I. unfold rleb, tol.
    destruct (ec_k a); (destruct (Rle_dec _ _) as [|N]; [reflexivity|destruct N; nra]).
  - intros K S. unfold slack_econe in S. rewrite removelast_app1, last_app1 in S. unfold rleb, tol. destruct (ec_k a); [congruence| | |]; (destruct (Rle_dec _ _); [tauto|reflexivity]).
Qed.
(** The test for the nuclear norm ignores the largest singular value. *)
Lemma rank_one : forall r X, (1 <= r)%nat -> length X = (r * 1)%nat -> forall U D V, is_svd r 1 X U D V -> nuc_norm r 1 X = op_norm r 1 X.
Proof.
  intros r X Hr LX U D V Sv. destruct (D_app r 1 Hr (le_n 1) X U D V Sv) as (E1 & E2 & _ & E4 & _). pose proof (sv_d _ _ _ _ _ _ Sv) as L. replace (Nat.min r 1) with 1%nat in L by lia. destruct D as [|a [|b D]]; try discriminate. rewrite E1, E4, E2. cbn [nth tl]. unfold vsum. cbn. ring.
Qed.
Theorem nuclear_test_wrong : forall r svd X t, (1 <= r)%nat -> svd_ok r 1 svd -> length X = (r * 1)%nat -> 0 <= t -> ec_constraint ENuclear r 1 svd (X ++ [t]) = Ok (Fin 0).
Proof.
  intros r svd X t Hr OK LX Ht. rewrite (ec_test r 1 svd Hr (le_n 1) OK ENuclear X t LX). destruct (svd_at r 1 svd OK X LX) as (U & D & V & _ & Sv). rewrite (rank_one r X Hr LX U D V Sv). unfold rleb, tol. assert (T : 0 < / 10 ^ 5) by (apply Rinv_0_lt_compat, pow_lt; lra).
  destruct (Rle_dec _ _) as [|N]; [reflexivity|destruct N; nra].
Qed.
