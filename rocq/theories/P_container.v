(** Proofs about containers. *)
From Coq Require Import Reals List Lra Lia Arith Bool.
From Verif Require Import M_affine SpecAffine P_affine M_loss M_smooth SpecSmooth P_smooth Vec Spec SpecConvex M_quad P_quad P_calc P_sep M_prox M_semi SpecAtom P_semi P_conj M_shift SpecBase P_shift M_afatom SpecCone M_cones P_cones M_fista SpecFista M_problem SpecProblem P_problem P_separable M_sconj SpecSconj P_sconj M_container SpecContainer P_dual.
Import ListNotations.
Local Open Scope R_scope.

(** ** The dual problem FISTA sees *)
Lemma times_opp : forall v, times (-1) v = vopp v.
Proof. intros v. unfold times. destruct (Req_EM_T (-1) 1) as [E|_]; [exfalso; lra|]. unfold vscal, vopp. apply map_ext. intros. ring. Qed.
Lemma minus_adjoint_spec : forall D, true_adjoint D -> true_adjoint (minus_adjoint D) /\ (forall u, t_aff (minus_adjoint D) u = vopp (t_adj D u)) /\ (forall u, t_lin (minus_adjoint D) u = vopp (t_adj D u)) /\ (forall v, t_adj (minus_adjoint D) v = vopp (t_lin D v)).
Proof.
  intros D (A1 & A2 & A3). unfold minus_adjoint, scalar_multiply, adjoint. cbn [t_lin t_aff t_adj t_in t_out]. repeat split; try (intros; apply times_opp); cbn [t_lin t_aff t_adj t_in t_out]; intros; rewrite ?times_opp, ?vopp_length; auto.
  rewrite dot_opp_r, (dot_comm (vopp _)), dot_opp_r. f_equal. rewrite <- A3 by auto. apply dot_comm.
Qed.
Lemma minus_adjoint_bound : forall D L, true_adjoint D -> 0 <= L -> opnorm_bound D L -> opnorm_bound (minus_adjoint D) L.
Proof.
  intros D L A HL HO u Lu. destruct (minus_adjoint_spec D A) as (_ & _ & E & _). rewrite E, sqn_opp. apply opnorm_adj; auto.
Qed.
Lemma exact_prox : forall n H A L w g, exact_obj n H A -> 0 < L -> length w = n -> length g = n ->
  is_argmin n (fun z => ext_add (H z) (Fin (L / 2 * sqn (vsub z w) + dot g z))) (or_nil (o_prox A (mk_iq L (FVec w) (FVec g) 0))).
Proof.
  intros n H A L w g X HL Lw Lg. destruct (eo_prox _ _ _ X (mk_iq L (FVec w) (FVec g) 0)) as (v & E & M); [split; auto|exact HL|exact I|]. rewrite E. cbn [or_nil].
  assert (K : forall z, plus_quad n H (mk_iq L (FVec w) (FVec g) 0) z = ext_add (H z) (Fin (L / 2 * sqn (vsub z w) + dot g z))). { intros z. unfold plus_quad, q_denot, quad_fun. cbn [coef center linear_term constant_term fbcast]. do 2 f_equal. lra. }
  destruct M as (Lv & (r & Er) & M). split; auto. split; [exists r; rewrite <- K; auto|]. intros z Lz. rewrite <- !K. auto.
Qed.
Lemma dual_primal : forall n f g D A eval u, evaluates n eval f g -> true_adjoint D -> t_in D = n -> length u = t_out D -> dp_primal (mk_dproblem eval D A) u = Ok (g (vopp (t_adj D u))).
Proof.
  intros n f g D A eval u Ev TA En Lu. destruct (minus_adjoint_spec D TA) as (_ & E1 & _). unfold dp_primal. cbn [dp_f dp_map]. rewrite E1. destruct TA as (_ & A2 & _). destruct (Ev (vopp (t_adj D u)) ltac:(rewrite vopp_length, A2; auto)) as (_ & V & _). rewrite V. reflexivity.
Qed.
Theorem dual_exact : forall n K L f g D G A eval Lo lip, evaluates n eval f g -> smooth_conjugate_of n K L f g -> 0 <= L -> linear_map n D -> exact_obj (t_out D) G A -> 0 <= Lo -> opnorm_bound D Lo ->
  let C := dp_composite (mk_dproblem eval D A) lip in
  exact_problem (t_out D) (fun u => f (vopp (t_adj D u))) G C /\ lipschitz_map (t_out D) (c_grad C) (Lo * L) /\ c_lipschitz C = lip /\
  (forall u, length u = t_out D -> dp_primal (mk_dproblem eval D A) u = Ok (g (vopp (t_adj D u)))).
Proof.
  intros n K L f g D G A eval Lo lip Ev S HL (TA & En & _ & _) X HLo HO C. destruct (minus_adjoint_spec D TA) as (TA' & E1 & E2 & E3). destruct S as (At & Cv & Gd & Lp).
  assert (Ein : t_in (minus_adjoint D) = t_out D) by reflexivity. assert (Eout : t_out (minus_adjoint D) = n) by exact En.
  destruct (linear_pullback (minus_adjoint D) f g L Lo TA') as (P1 & P2 & P3); auto; try (rewrite Eout; auto; fail). { apply minus_adjoint_bound; auto. } { intros y Ly. rewrite Eout in *. apply At; auto. }
  rewrite Ein in *. assert (EQ : forall u, length u = t_out D -> length (vopp (t_adj D u)) = n) by (intros u Lu; rewrite vopp_length; destruct TA as (_ & A2 & _); rewrite A2; auto).
  assert (Gr : forall u, length u = t_out D -> c_grad C u = t_adj (minus_adjoint D) (g (t_aff (minus_adjoint D) u))). { intros u Lu. unfold C, dp_composite, dp_eval. cbn [c_grad dp_f dp_map]. destruct (Ev (t_aff (minus_adjoint D) u) ltac:(rewrite E1; auto)) as (_ & V & _ & _). rewrite V. reflexivity. }
  split; [split|split; [|split; [reflexivity|]]].
  - intros x y t Lx Ly Ht. assert (Q := P1 x y t Lx Ly Ht). cbv beta in Q. rewrite !E1 in Q. exact Q.
  - intros u Lu. rewrite Gr by auto. destruct (P2 u Lu) as [Q1 Q2]. split; auto. intros d Ld. specialize (Q2 d Ld). eapply derive_ext; [|exact Q2]. intros t. cbv beta. rewrite E1. reflexivity.
  - apply (eo_convex _ _ _ X).
  - intros u Lu. unfold C, dp_composite, dp_eval. cbn [c_smooth dp_f dp_map]. rewrite E1. destruct (Ev (vopp (t_adj D u)) (EQ u Lu)) as (V & _). rewrite V. reflexivity.
  - intros u r check Lu Er. unfold C, dp_composite, dp_nonsmooth. cbn [c_nonsmooth dp_atom]. rewrite (eo_value _ _ _ X u r check Lu Er). cbn. f_equal. lra.
  - intros L0 w0 g0 HL0 Lw Lg. unfold C, dp_composite, dp_prox. cbn [c_prox dp_atom]. apply exact_prox; auto.
  - intros x y Lx Ly. rewrite !Gr by auto. apply P3; auto.
  - intros u Lu. unfold dp_primal. cbn [dp_f dp_map]. rewrite E1. destruct (Ev (vopp (t_adj D u)) (EQ u Lu)) as (_ & V & _). rewrite V. reflexivity.
Qed.

(** ** Stacked duals *)
Lemma part_of_seq : forall m s y, (s + m <= length y)%nat -> part_of y (seq s m) = firstn m (skipn s y).
Proof.
  induction m as [|m IH]; intros s y H; [reflexivity|]. cbn [seq]. unfold part_of in *. cbn [map]. rewrite IH by lia. clear IH. revert s H. induction y as [|a y IH]; intros s H; [cbn in H; lia|]. destruct s as [|s]; [reflexivity|]. cbn [nth]. rewrite IH by (cbn in H; lia). reflexivity.
Qed.
Lemma skipn_add : forall a b (y : vec), skipn a (skipn b y) = skipn (b + a) y.
Proof. intros a b. induction b as [|b IH]; intros y; [reflexivity|]. destruct y as [|c y]; [destruct a; reflexivity|]. cbn. apply IH. Qed.
Lemma separable_slices : forall ts Fs s y, length y = (s + list_sum (map t_out ts))%nat -> separable_fun Fs (slices s ts) y = stack_fun Fs ts (skipn s y).
Proof.
  induction ts as [|t ts IH]; intros [|F Fs] s y H; cbn [slices separable_fun stack_fun]; auto. change (list_sum (map t_out (t :: ts))) with (t_out t + list_sum (map t_out ts))%nat in H. rewrite part_of_seq by lia. rewrite IH by lia. rewrite skipn_add. reflexivity.
Qed.
Lemma ext_add_fin : forall a b r, ext_add a b = Fin r -> exists x y, a = Fin x /\ b = Fin y /\ r = x + y.
Proof. intros [x|] [y|] r E; try discriminate. cbn in E. exists x, y. repeat split; congruence. Qed.
Lemma fenchel_app : forall m1 m2 G1 G2 y1 y2 s1 s2, length y1 = m1 -> length y2 = m2 -> is_fenchel m1 G1 y1 s1 -> is_fenchel m2 G2 y2 s2 ->
  is_fenchel (m1 + m2) (fun u => ext_add (G1 (firstn m1 u)) (G2 (skipn m1 u))) (y1 ++ y2) (ext_add s1 s2).
Proof.
  intros m1 m2 G1 G2 y1 y2 s1 s2 L1 L2 F1 F2.
  assert (J : forall u1 u2 r1 r2, length u1 = m1 -> length u2 = m2 -> G1 u1 = Fin r1 -> G2 u2 = Fin r2 -> length (u1 ++ u2) = (m1 + m2)%nat /\ ext_add (G1 (firstn m1 (u1 ++ u2))) (G2 (skipn m1 (u1 ++ u2))) = Fin (r1 + r2) /\ dot (y1 ++ y2) (u1 ++ u2) = dot y1 u1 + dot y2 u2).
  { intros u1 u2 r1 r2 K1 K2 E1 E2. split; [rewrite app_length; congruence|]. split; [|apply dot_app; congruence]. rewrite firstn_app, skipn_app. rewrite K1, Nat.sub_diag. cbn [firstn skipn]. rewrite app_nil_r. rewrite firstn_all2 by lia. rewrite skipn_all2 by lia. cbn [app]. rewrite E1, E2. reflexivity. }
  assert (N1 : exists u1 r1, length u1 = m1 /\ G1 u1 = Fin r1). { destruct s1 as [v|]; [destruct (proj2 F1 1 ltac:(lra)) as (u & r & ? & ? & _); eauto|destruct (F1 0) as (u & r & ? & ? & _); eauto]. }
  assert (N2 : exists u2 r2, length u2 = m2 /\ G2 u2 = Fin r2). { destruct s2 as [v|]; [destruct (proj2 F2 1 ltac:(lra)) as (u & r & ? & ? & _); eauto|destruct (F2 0) as (u & r & ? & ? & _); eauto]. }
  destruct s1 as [v1|], s2 as [v2|]; cbn [ext_add].
  - destruct F1 as [A1 B1], F2 as [A2 B2]. split.
    + intros u r Lu Er. destruct (ext_add_fin _ _ _ Er) as (a & b & Ea & Eb & ->). destruct (firstn_skipn_len u m1 m2 Lu) as [K1 K2]. specialize (A1 _ _ K1 Ea). specialize (A2 _ _ K2 Eb). rewrite <- (firstn_skipn m1 u) at 1. rewrite dot_app by congruence. lra.
    + intros e He. destruct (B1 (e / 2) ltac:(lra)) as (u1 & r1 & K1 & E1 & H1). destruct (B2 (e / 2) ltac:(lra)) as (u2 & r2 & K2 & E2 & H2). destruct (J u1 u2 r1 r2 K1 K2 E1 E2) as (J1 & J2 & J3). exists (u1 ++ u2), (r1 + r2). split; auto. split; auto. rewrite J3. lra.
  - intros M. destruct N1 as (u1 & r1 & K1 & E1). destruct (F2 (M - dot y1 u1 + r1)) as (u2 & r2 & K2 & E2 & H2). destruct (J u1 u2 r1 r2 K1 K2 E1 E2) as (J1 & J2 & J3). exists (u1 ++ u2), (r1 + r2). split; auto. split; auto. rewrite J3. lra.
  - intros M. destruct N2 as (u2 & r2 & K2 & E2). destruct (F1 (M - dot y2 u2 + r2)) as (u1 & r1 & K1 & E1 & H1). destruct (J u1 u2 r1 r2 K1 K2 E1 E2) as (J1 & J2 & J3). exists (u1 ++ u2), (r1 + r2). split; auto. split; auto. rewrite J3. lra.
  - intros M. destruct N2 as (u2 & r2 & K2 & E2). destruct (F1 (M - dot y2 u2 + r2)) as (u1 & r1 & K1 & E1 & H1). destruct (J u1 u2 r1 r2 K1 K2 E1 E2) as (J1 & J2 & J3). exists (u1 ++ u2), (r1 + r2). split; auto. split; auto. rewrite J3. lra.
Qed.
Lemma stack_fenchel : forall n Gs Hs ps, exact_parts n Gs Hs ps -> forall y, length y = list_sum (map t_out (map np_map ps)) -> is_fenchel (list_sum (map t_out (map np_map ps))) (stack_fun Gs (map np_map ps)) y (stack_fun Hs (map np_map ps) y).
Proof.
  intros n Gs Hs ps X. induction X as [|G H p Gs Hs ps Xp X IH]; intros y Ly.
  - cbn in Ly |- *. split; [intros x r Lx Er|intros e He; exists [], 0]. { destruct x; [|discriminate]. destruct y; [|discriminate]. injection Er as <-. unfold dot. cbn. lra. } split; auto. split; auto. destruct y; [|discriminate]. unfold dot. cbn. lra.
  - change (list_sum (map t_out (map np_map (p :: ps)))) with (t_out (np_map p) + list_sum (map t_out (map np_map ps)))%nat in *. cbn [map]. destruct (firstn_skipn_len _ _ _ Ly) as [K1 K2]. cbn [stack_fun]. rewrite <- (firstn_skipn (t_out (np_map p)) y) at 1. apply fenchel_app; auto. apply (xp_conj _ _ _ _ Xp); auto.
Qed.
Lemma stack_parts : forall n Gs Hs ps x, exact_parts n Gs Hs ps -> length x = n -> stack_fun Hs (map np_map ps) (concat (map (fun t => t_lin t x) (map np_map ps))) = parts_fun Hs ps x.
Proof.
  intros n Gs Hs ps x X Lx. induction X as [|G H p Gs Hs ps Xp X IH]; [reflexivity|]. cbn [map concat stack_fun parts_fun]. destruct (xp_map _ _ _ _ Xp) as ((A1 & _) & En & _). assert (Lt : length (t_lin (np_map p) x) = t_out (np_map p)) by (apply A1; congruence).
  rewrite firstn_app, skipn_app, Lt, Nat.sub_diag. cbn [firstn skipn]. rewrite app_nil_r. rewrite firstn_all2, skipn_all2 by lia. cbn [app]. rewrite IH. reflexivity.
Qed.
Lemma slices_concat : forall ts s, concat (slices s ts) = seq s (list_sum (map t_out ts)).
Proof. induction ts as [|t ts IH]; intros s; [reflexivity|]. cbn [slices concat map]. rewrite IH. change (list_sum (t_out t :: map t_out ts)) with (t_out t + list_sum (map t_out ts))%nat. rewrite seq_app. reflexivity. Qed.
Lemma slices_length : forall ts s, length (slices s ts) = length ts.
Proof. induction ts as [|t ts IH]; intros s; cbn; auto. Qed.
Lemma slices_legal : forall ts, legal_groups (list_sum (map t_out ts)) (slices 0 ts).
Proof.
  intros ts. unfold legal_groups. rewrite slices_concat. split; [apply seq_NoDup|]. intros g i Hg Hi. assert (K : In i (concat (slices 0 ts))) by (apply in_concat; eauto). rewrite slices_concat in K. apply in_seq in K. lia.
Qed.
Lemma legal_accepted : forall n atoms gs, legal_groups n gs -> new_separable n atoms gs false = Ok (mk_separable n (combine atoms gs)).
Proof.
  intros n atoms gs [ND R]. assert (E : existsb (existsb (fun i => Nat.leb n i)) gs = false). { destruct (existsb _ gs) eqn:E; auto. apply existsb_exists in E. destruct E as (g & Hg & E). apply existsb_exists in E. destruct E as (i & Hi & E). apply Nat.leb_le in E. specialize (R g i Hg Hi). lia. }
  unfold new_separable. cbn [rbind]. rewrite E. reflexivity.
Qed.
Lemma ext_add_0 : forall e, ext_add e (Fin 0) = e.
Proof. intros [r|]; cbn; auto. f_equal. lra. Qed.
Lemma exact_part_fields : forall n Gs Hs ps, exact_parts n Gs Hs ps -> forall p, In p ps -> linear_map n (np_map p).
Proof. intros n Gs Hs ps X. induction X as [|G H p Gs Hs ps Xp X IH]; intros q Hq; [contradiction|]. destruct Hq as [<-|Hq]; auto. apply (xp_map _ _ _ _ Xp). Qed.
Lemma slices_exact : forall n Gs Hs ps, exact_parts n Gs Hs ps -> forall s, parts_exact (combine (map np_dual ps) (slices s (map np_map ps))) Gs.
Proof. intros n Gs Hs ps X. unfold parts_exact. induction X as [|G H p Gs Hs ps Xp X IH]; intros s; cbn [map slices combine]; constructor; [|apply IH]. cbn [fst snd]. rewrite seq_length. apply (xp_dual _ _ _ _ Xp). Qed.
Theorem stack_exact : forall n Gs Hs ps, exact_parts n Gs Hs ps -> ps <> [] -> exists S G H, stacked_dual n ps = Ok S /\ linear_map n (st_map S) /\ exact_obj (t_out (st_map S)) G (st_dual S) /\
  (forall y, length y = t_out (st_map S) -> is_fenchel (t_out (st_map S)) G y (H y)) /\ (forall x, length x = n -> H (t_lin (st_map S) x) = parts_fun Hs ps x) /\ (forall u, length u = t_out (st_map S) -> G u = stack_fun Gs (map np_map ps) u) /\
  match st_kind S with
  | TIdentity => t_out (st_map S) = n /\ forall x, length x = n -> t_lin (st_map S) x = x
  | TSelector idx => t_out (st_map S) = length idx /\ legal_groups n [idx] /\ forall x, length x = n -> t_lin (st_map S) x = part_of x idx
  | TGeneral => True
  end /\ (st_kind S <> TGeneral -> exists A, st_primal S = Ok A /\ exact_obj (t_out (st_map S)) H A).
Proof.
  intros n Gs Hs ps X N. destruct ps as [|p ps]; [congruence|]. clear N. destruct ps as [|p2 ps].
  - inversion X as [|G H p' Gs' Hs' ps' Xp X']. inversion X'. subst. eexists. exists G, H. split; [reflexivity|]. cbn [st_map st_kind st_dual st_primal]. destruct Xp as [M1 M2 M3 M4 M5 M6]. split; [auto|]. split; [auto|]. split; [auto|]. split; [intros x Lx; cbn [parts_fun]; rewrite ext_add_0; reflexivity|]. split; [intros u Lu; cbn [map stack_fun]; rewrite ext_add_0; rewrite firstn_all2 by lia; reflexivity|auto].
  - set (qs := p :: p2 :: ps) in *. assert (F := exact_part_fields n Gs Hs qs X). assert (Ht : forall t, In t (map np_map qs) -> linear_map n t). { intros t Ht. apply in_map_iff in Ht. destruct Ht as (q & <- & Hq). auto. }
    assert (EV : exists T, vstack (map np_map qs) = Ok T). { unfold vstack, qs. cbn [map]. destruct (forallb _ _) eqn:E; [eauto|]. exfalso. assert (K : forallb (fun t => Nat.eqb (t_in t) (t_in (np_map p))) (map np_map qs) = true). { apply forallb_forall. intros t Hi. apply Nat.eqb_eq. destruct (Ht t Hi) as (_ & -> & _). destruct (F p (or_introl eq_refl)) as (_ & -> & _). reflexivity. } unfold qs in K. cbn [map] in K. congruence. }
    destruct EV as (T & EV). destruct (vstack_form _ T EV) as (n' & off & Hn & Eoff & ET). cbv zeta in ET.
    assert (n' = n). { rewrite <- (Hn (np_map p)) by (left; reflexivity). apply (F p (or_introl eq_refl)). } subst n'.
    assert (Z : M_affine.all_zero off = true). { rewrite Eoff. clear - Ht. induction (map np_map qs) as [|t ts IH]; [reflexivity|]. cbn [map concat]. unfold M_affine.all_zero in *. rewrite forallb_app, IH by (intros; apply Ht; right; auto). rewrite andb_true_r. destruct (Ht t (or_introl eq_refl)) as (TA & En & Ea & _). rewrite Ea by vlen. rewrite <- En. rewrite lin_zero by auto. apply forallb_forall. intros a Ha. apply repeat_spec in Ha. subst a. destruct (Req_EM_T 0 0); tauto. }
    rewrite Z in ET. assert (H' : forall t, In t (map np_map qs) -> true_adjoint t /\ t_in t = n) by (intros t Hi; destruct (Ht t Hi) as (? & ? & _); auto).
    assert (LM : linear_map n T). { rewrite ET. split; [|split; [reflexivity|split; [reflexivity|]]].
      - split; [|split]; cbn [t_lin t_adj t_in t_out].
        + intros x Lx. apply concat_len. intros t Hi. destruct (H' t Hi) as [(A1 & _) En]. apply A1. congruence.
        + intros u Lu. apply vstack_adj_length; auto.
        + intros x u Lx Lu. apply vstack_adjoint; auto.
      - cbn [t_out]. unfold qs. cbn [map]. change (list_sum (t_out (np_map p) :: ?l)) with (t_out (np_map p) + list_sum l)%nat. destruct (F p (or_introl eq_refl)) as (_ & _ & _ & O). simpl list_sum. lia. }
    assert (EO : t_out T = list_sum (map t_out (map np_map qs))) by (rewrite ET; reflexivity). set (ts := map np_map qs) in *. set (parts := combine (map np_dual qs) (slices 0 ts)).
    assert (LS : length (map np_dual qs) = length (slices 0 ts)) by (rewrite slices_length; unfold ts; rewrite !map_length; reflexivity).
    assert (Esnd : map snd parts = slices 0 ts). { unfold parts. revert LS. generalize (map np_dual qs), (slices 0 ts). induction l as [|a l IH]; intros [|b l']; cbn; intros E; try discriminate; auto. f_equal. apply IH. congruence. }
    assert (EN : new_separable (t_out T) (map np_dual qs) (slices 0 ts) false = Ok (mk_separable (t_out T) parts)). { rewrite EO. apply legal_accepted. apply slices_legal. }
    assert (PE : parts_exact parts Gs). { unfold parts, ts. eapply slices_exact; eauto. }
    exists (mk_stacked T TGeneral (of_separable (mk_separable (t_out T) parts)) (Err NotImplementedError)), (separable_fun Gs (slices 0 ts)), (separable_fun Hs (slices 0 ts)).
    split; [unfold stacked_dual; subst qs; cbn [rbind]; fold ts; rewrite EV; cbn [rbind]; rewrite EN; reflexivity|]. cbn [st_map st_kind st_dual st_primal]. split; [exact LM|]. split; [|split; [|split; [|split; [intros u Lu; rewrite separable_slices by (rewrite <- EO; auto); reflexivity|split; [exact I|congruence]]]]].
    + rewrite <- Esnd. apply separable_exact; auto; [apply LM|]. rewrite Esnd, EO. apply slices_legal.
    + intros y Ly. rewrite EO in *. rewrite separable_slices by auto. apply (is_fenchel_ext _ (stack_fun Gs ts)); [intros u Lu; rewrite separable_slices by auto; reflexivity|]. apply (stack_fenchel n Gs Hs qs X); auto.
    + intros x Lx. rewrite separable_slices. { rewrite ET. cbn [t_lin]. apply (stack_parts n Gs Hs qs); auto. } change (0 + list_sum (map t_out ts))%nat with (list_sum (map t_out ts)). rewrite <- EO. apply LM. destruct LM as (_ & -> & _). exact Lx.
Qed.
