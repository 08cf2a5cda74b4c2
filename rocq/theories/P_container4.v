(** Proofs about containers: the run on the dual, and where containers fail. *)
From Coq Require Import Reals List Lra Lia Arith Bool.
From Verif Require Import M_affine SpecAffine P_affine M_loss M_smooth SpecSmooth P_smooth Vec Spec SpecConvex M_quad P_quad P_calc P_sep M_prox M_semi SpecAtom P_semi P_conj M_shift SpecBase P_shift M_afatom SpecCone M_cones P_cones M_fista SpecFista P_fista P_fista2 M_problem SpecProblem P_problem P_separable P_problem2 M_sconj SpecSconj P_sconj M_container SpecContainer P_dual P_container P_container2 P_container3.
Import ListNotations.
Local Open Scope R_scope.

(** ** dual_problem *)
Theorem dual_problem_recovers : forall n K L f g D G H A eval Lo lip, evaluates n eval f g -> smooth_conjugate_of n K L f g -> 0 <= L -> linear_map n D -> exact_obj (t_out D) G A -> (forall y, length y = t_out D -> is_fenchel (t_out D) G y (H y)) -> 0 <= Lo -> opnorm_bound D Lo ->
  let P := mk_dproblem eval D A in let F := fun u => f (vopp (t_adj D u)) in
  exact_problem (t_out D) F G (dp_composite P lip) /\ lipschitz_map (t_out D) (c_grad (dp_composite P lip)) (Lo * L) /\
  (forall u r chk, length u = t_out D -> G u = Fin r -> dp_objective P u chk = objective F G u) /\
  forall u p, is_argmin (t_out D) (objective F G) u -> dp_primal P u = Ok p -> is_unique_argmin n (primal_fun K D H) p.
Proof.
  intros n K L f g D G H A eval Lo lip Ev SC HL LM XG FH HLo HO P F. destruct (dual_exact n K L f g D G A eval Lo lip Ev SC HL LM XG HLo HO) as (P1 & P2 & _ & _). split; [exact P1|]. split; [exact P2|]. split.
  - intros u r chk Lu Eu. assert (E1 := ex_smooth _ _ _ _ P1 u Lu). assert (E2 := ex_nonsmooth _ _ _ _ P1 u r chk Lu Eu). cbn [dp_composite c_smooth c_nonsmooth] in E1, E2. unfold dp_objective, objective. unfold P. rewrite E1, E2, Eu. reflexivity.
  - intros u p M Ep. destruct LM as (TA & En & _). assert (M' := M). destruct M' as (Lu & (r & Er) & _). unfold P in Ep. rewrite (dual_primal n f g) in Ep by auto. apply Ok_inj in Ep. subst p.
    apply (dual_recovers n K L f g D G H SC TA En (eo_convex _ _ _ XG) FH u r M Er).
Qed.

(** ** The run *)
Lemma fenchel_fin_unique : forall n F u a b, is_fenchel n F u (Fin a) -> is_fenchel n F u (Fin b) -> a = b.
Proof.
  assert (H : forall n F u a b, is_fenchel n F u (Fin a) -> is_fenchel n F u (Fin b) -> a <= b). { intros n F u a b [_ A] [B _]. destruct (Rle_lt_dec a b) as [|N]; auto. destruct (A (a - b) ltac:(lra)) as (x & r & Lx & Ex & K). specialize (B x r Lx Ex). lra. }
  intros n F u a b A B. apply Rle_antisym; eapply H; eauto.
Qed.
Theorem container_run : forall P Ld n smooths Gs Hs parts q0 K c l gam L, sound_parts n smooths Gs Hs parts q0 -> container_of n smooths parts q0 K -> 0 < L -> length c = n -> length l = n ->
  no_quadratic n q0 -> (forall x, length x = n -> quads_sum n smooths x = 0) -> total_coef smooths q0 (mk_iq L (FVec c) (FVec l) gam) = L -> let q := mk_iq L (FVec c) (FVec l) gam in
  st_kind (ct_stack K) = TGeneral -> 0 < Ld -> opnorm_bound (st_map (ct_stack K)) Ld ->
  p_backtrack P = false -> p_monotonicity P = false -> p_restart P = None -> 0 < p_start_step P -> (1 <= Nat.min (min_of P) (max_of P))%nat ->
  (exists r, dual_fun Gs parts (zeros (t_out (st_map (ct_stack K)))) = Fin r) ->
  forall D F u, ct_dual_problem K q = Ok D -> (forall u, length u = t_out (dp_map D) -> is_fenchel n (fun x => Fin (q_denot n q x)) (vopp (t_adj (dp_map D) u)) (Fin (F u))) -> is_argmin (t_out (dp_map D)) (objective F (dual_fun Gs parts)) u ->
  exists v v0, ct_proximal P Ld K q = Ok v /\ is_unique_argmin n (plus_quad n (parts_fun Hs parts) q) v0 /\
    sqn (vsub v0 v) <= 4 * Ld * sqn u / (L * L * ((INR (Nat.min (min_of P) (max_of P)) + 1) * (INR (Nat.min (min_of P) (max_of P)) + 1))).
Proof.
  intros P Ld n smooths Gs Hs parts q0 K c l gam L SP CO HL Lc Ll Z0 Zs TC q NG HLd HO Hb Hm Hr Hst Hk FG D F u ED HF Mu.
  destruct (container_recovers n smooths Gs Hs parts q0 K c l gam L SP CO HL Lc Ll Z0 Zs TC) as (D' & F' & ED' & ET & HF' & EX & RC & AC & GAP). fold q in ED', RC, AC, GAP, HF'. cbv zeta in *. assert (D' = D) by (rewrite ED in ED'; apply Ok_inj in ED'; auto). subst D'. set (T := dp_map D) in *.
  assert (EF : forall x, length x = t_out T -> F x = F' x). { intros x Lx. exact (fenchel_fin_unique _ _ _ _ _ (HF x Lx) (HF' x Lx)). }
  assert (Mu' : is_argmin (t_out T) (objective F' (dual_fun Gs parts)) u). { destruct Mu as (Lu & (r & Er) & M). split; auto. unfold objective in *. split; [exists r; rewrite <- EF by auto; exact Er|]. intros y Ly. rewrite <- !EF by auto. apply M; auto. }
  rewrite <- ET in *. destruct (EX (Ld / L) Ld ltac:(lra) HO) as [X Lip]. set (C := dp_composite D (Ld / L)) in *. assert (HLL : 0 < Ld / L) by (apply Rdiv_lt_0_compat; auto).
  assert (SF : steps_fit (t_out T) P C) by (right; split; [exact HLL|exact Lip]). destruct FG as (g0 & Eg0). assert (Lz : length (zeros (t_out T)) = t_out T) by apply zeros_length.
  assert (GS : good_start (dual_fun Gs parts) C (zeros (t_out T))). { unfold good_start. rewrite Eg0. apply (ex_nonsmooth _ _ _ _ X); auto. }
  destruct (fit_terminates_fixed (max_of P) 0 P C (zeros (t_out T)) None false Hb) as (s & Es); [cbn [C dp_composite c_lipschitz]; lra|lia|].
  destruct (exact_fit _ _ _ _ X P SF _ _ _ None false s Lz GS Hst Es) as (Bad & _ & Eo & Ls). destruct (fit_explained _ _ _ _ _ _ _ _ Es) as (_ & _ & _ & It). assert (Hi : (Nat.min (min_of P) (max_of P) <= s_it s)%nat) by lia.
  assert (Mu2 := Mu'). destruct Mu2 as (Lu & (r0 & Er0) & Min). rewrite Er0 in Min.
  destruct (fista_rate _ _ _ _ X P u r0 SF Hm Hr Lu Er0 Min _ _ _ None false s Lz GS Hst (or_introl Hb) Es ltac:(lia)) as (Fs & EFs & Rate & Estep). specialize (Estep Hb).
  destruct (RC u Mu') as (v0 & Ev0 & Uv0). assert (Mv0 := proj1 Uv0). destruct Mv0 as (Lv0 & (p & Ep) & _). assert (Gp := GAP u r0 v0 p Mu' Er0 (proj1 Uv0) Ep).
  destruct (AC (s_coefs s) Fs v0 p Ls EFs Lv0 Ep) as (v & Ev & Acc). exists v, v0. split; [|split; [exact Uv0|]].
  - unfold ct_proximal. rewrite NG, ED. cbn [rbind]. fold C. change (coef q) with L. fold C. rewrite <- ET. rewrite Es. cbn [rbind]. exact Ev.
  - rewrite Estep in Rate. cbn [C dp_composite c_lipschitz] in Rate. set (k := s_it s) in *. set (m := Nat.min (min_of P) (max_of P)) in *. assert (Km : INR m <= INR k) by (apply le_INR; auto). assert (K1 : 1 <= INR m) by (apply (le_INR 1); auto).
    replace (sqn (vsub (zeros (t_out T)) u)) with (sqn u) in Rate by (rewrite (vsub_zeros_l _ u Lu), sqn_scal; lra). assert (Q := sqn_nonneg u).
    assert (R1 : 2 * sqn u / (1 / (Ld / L) * ((INR k + 1) * (INR k + 1))) = 2 * Ld * sqn u / L / ((INR k + 1) * (INR k + 1))) by (field; repeat split; nra). rewrite R1 in Rate.
    assert (R2 : 2 * Ld * sqn u / L / ((INR k + 1) * (INR k + 1)) <= 2 * Ld * sqn u / L / ((INR m + 1) * (INR m + 1))). { apply Rmult_le_compat_l; [|apply Rinv_le_contravar; nra]. apply Rmult_le_pos; [nra|apply Rlt_le, Rinv_0_lt_compat; auto]. }
    assert (R3 : L / 2 * sqn (vsub v0 v) <= 2 * Ld * sqn u / L / ((INR m + 1) * (INR m + 1))) by lra. apply (Rmult_le_compat_l (2 / L)) in R3; [|apply Rlt_le, Rdiv_lt_0_compat; lra].
    replace (2 / L * (L / 2 * sqn (vsub v0 v))) with (sqn (vsub v0 v)) in R3 by (field; lra). replace (2 / L * (2 * Ld * sqn u / L / ((INR m + 1) * (INR m + 1)))) with (4 * Ld * sqn u / (L * L * ((INR m + 1) * (INR m + 1)))) in R3 by (field; repeat split; nra). exact R3.
Qed.

(** ** Where containers fail *)
Definition one_l1 : atom := mk_atom CL1 1 (Some 1) None None no_quad.
Lemma one_l1_doc : forall a, atom_doc 1 one_l1 (Lagrange 1) [a] = Fin (Rabs a).
Proof. intros a. unfold atom_doc, doc_objective, one_l1, quad_fun, sqn, dot, vsum. cbn. f_equal. rewrite !Rminus_0_r. lra. Qed.
Lemma one_l1_part : forall T k, linear_map 1 T -> t_out T = 1%nat ->
  match k with
  | TIdentity => t_out T = 1%nat /\ forall x, length x = 1%nat -> t_lin T x = x
  | TSelector idx => t_out T = length idx /\ legal_groups 1 [idx] /\ forall x, length x = 1%nat -> t_lin T x = part_of x idx
  | TGeneral => True
  end ->
  exists p G, affine_part (mk_affine_atom one_l1 T) k = Ok p /\ np_map p = T /\ np_kind p = k /\ exact_part 1 G (atom_doc 1 one_l1 (Lagrange 1)) p /\ forall u, length u = 1%nat -> is_fenchel 1 (atom_doc 1 one_l1 (Lagrange 1)) u (G u).
Proof.
  intros T k LM Eo Kd. destruct (affine_part_exact 1 (mk_affine_atom one_l1 T) k (Lagrange 1)) as (p & d & Ep & Mp & Kp & _ & X & F); cbn [aa_map aa_atom] in *; rewrite ?Eo in *; auto.
  - split; [reflexivity|]. split; [intros o E; discriminate|split; exact I].
  - cbn. lra.
  - split; reflexivity.
  - split; discriminate.
  - cbn. auto.
  - exists p, (atom_doc 1 d (dual_mode (Lagrange 1))). repeat (split; auto).
Qed.
Lemma one_l1_dual : forall G, (forall u, length u = 1%nat -> is_fenchel 1 (atom_doc 1 one_l1 (Lagrange 1)) u (G u)) -> G [0] = Fin 0 /\ forall u, length u = 1%nat -> ext_le (Fin 0) (G u).
Proof.
  intros G F. assert (P : forall u, length u = 1%nat -> ext_le (Fin 0) (G u)). { intros u Lu. specialize (F u Lu). destruct (G u) as [v|]; [|exact I]. destruct F as [F _]. specialize (F [0] 0 eq_refl ltac:(rewrite one_l1_doc, Rabs_R0; reflexivity)). destruct u as [|a [|]]; try discriminate. unfold dot, vsum in F. cbn in F |- *. lra. }
  split; auto. assert (F0 := F [0] eq_refl). specialize (P [0] eq_refl). destruct (G [0]) as [v|].
  - f_equal. cbn in P. destruct F0 as [_ F0]. destruct (Req_dec v 0) as [|N]; auto. destruct (F0 (v / 2) ltac:(lra)) as (x & r & Lx & Ex & K). destruct x as [|a [|]]; try discriminate. rewrite one_l1_doc in Ex. assert (r = Rabs a) by congruence. subst r. assert (0 <= Rabs a) by apply Rabs_pos. unfold dot, vsum in K. cbn in K. lra.
  - destruct (F0 1) as (x & r & Lx & Ex & K). destruct x as [|a [|]]; try discriminate. rewrite one_l1_doc in Ex. assert (r = Rabs a) by congruence. subst r. assert (0 <= Rabs a) by apply Rabs_pos. unfold dot, vsum in K. cbn in K. exfalso. lra.
Qed.
Definition twice_map : transform := matrix [[2]] 1 None.
Lemma twice_linear : linear_map 1 twice_map.
Proof.
  assert (B : built twice_map) by (apply b_matrix; [repeat constructor|discriminate]). split; [apply (built_good _ B)|]. split; [reflexivity|]. split; [reflexivity|cbn; auto].
Qed.
Lemma twice_at : forall a, t_lin twice_map [a] = [2 * a].
Proof. intros a. unfold twice_map, matrix. cbn. unfold dot, vsum. cbn. f_equal. lra. Qed.
Lemma zero_sound : sound_quad 1 no_quad.
Proof. split; [split; exact I|cbn; auto]. Qed.
Lemma one_sound : forall p G q0, exact_part 1 G (atom_doc 1 one_l1 (Lagrange 1)) p -> sound_quad 1 q0 -> sound_parts 1 [SZero 1 no_quad] [G] [atom_doc 1 one_l1 (Lagrange 1)] [p] q0.
Proof.
  intros p G q0 X S. split; auto. split; [discriminate|]. split; [discriminate|]. split; [constructor; [exact X|constructor]|]. split; [|exact S]. constructor; [exact zero_sound|constructor].
Qed.
(** The attribute quadratic is left out of the point the dual branch returns. *)
Definition left_q : iq := mk_iq 1 (FVec [-2]) FNone 0.
Definition right_q : iq := mk_iq 1 (FVec [2]) (FVec [0]) 0.
Theorem quadratic_lost : exists p K D F G u, affine_part (mk_affine_atom one_l1 twice_map) TGeneral = Ok p /\ container_of 1 [SZero 1 no_quad] [p] left_q K /\ ct_dual_problem K right_q = Ok D /\
  (forall u, length u = 1%nat -> is_fenchel 1 (fun x => Fin (q_denot 1 right_q x + q_denot 1 left_q x)) (vopp (t_adj twice_map u)) (Fin (F u))) /\ (forall u, length u = 1%nat -> is_fenchel 1 (atom_doc 1 one_l1 (Lagrange 1)) u (G u)) /\
  is_argmin 1 (objective F G) u /\ ct_point K right_q u = Ok [2] /\
  (forall a, ext_add (atom_doc 1 one_l1 (Lagrange 1) (t_lin twice_map [a])) (Fin (q_denot 1 right_q [a] + q_denot 1 left_q [a])) = Fin (Rabs (2 * a) + a * a + 4)).
Proof.
  destruct (one_l1_part twice_map TGeneral twice_linear eq_refl I) as (p & G & Ep & Mp & Kp & X & FG). assert (Sl : sound_quad 1 left_q) by (split; [split; cbn; auto|exact I]). assert (SP := one_sound p G left_q X Sl).
  destruct (container_form 1 _ _ _ _ _ SP) as (S & sq & _ & _ & EK & _ & _ & _ & _ & _ & _ & _ & _ & _ & _ & ES). set (K := mk_container [SZero 1 no_quad] [p] S left_q sq (zeros (t_in (st_map S)))). assert (CO : container_of 1 [SZero 1 no_quad] [p] left_q K) by (apply EK; reflexivity).
  assert (Sr : sound_quad 1 right_q) by (split; [split; cbn; auto|exact I]). destruct (container_dual 1 _ _ _ _ _ K right_q SP CO Sr) as (D & f & g & H & ED & ET & LM & _ & _ & _ & SC & _); [unfold total_coef; cbn; lra|]. cbv zeta in *.
  assert (EM : st_map S = twice_map). { cbn [stacked_dual rbind] in ES. apply Ok_inj in ES. rewrite <- ES. cbn [st_map]. exact Mp. } assert (ET' : dp_map D = twice_map) by (rewrite ET; exact EM).
  assert (Z0 : forall x, length x = 1%nat -> quads_sum 1 [SZero 1 no_quad] x = 0). { intros [|a [|]] L; try discriminate. unfold quads_sum, q_denot, quad_fun, sqn, dot, vsum. cbn. lra. }
  assert (QQ : forall a, q_denot 1 right_q [a] + q_denot 1 left_q [a] = a * a + 4). { intros a. unfold q_denot, quad_fun, sqn, dot, vsum. cbn. lra. }
  assert (TF : forall x, length x = 1%nat -> total_fun 1 [SZero 1 no_quad] left_q right_q x = Fin (q_denot 1 right_q x + q_denot 1 left_q x)). { intros x Lx. unfold total_fun. rewrite Z0 by auto. f_equal. lra. }
  destruct SC as (At & _). assert (La : forall u, length u = 1%nat -> length (vopp (t_adj twice_map u)) = 1%nat) by (intros u Lu; rewrite vopp_length; destruct twice_linear as ((_ & A2 & _) & _); rewrite A2; auto).
  exists p, K, D, (fun u => f (vopp (t_adj twice_map u))), G, [0]. split; [exact Ep|]. split; [exact CO|]. split; [exact ED|]. split; [|split; [exact FG|split; [|split]]].
  - intros u Lu. destruct (At _ (La u Lu)) as (Fk & _). eapply is_fenchel_ext; [exact TF|exact Fk].
  - destruct (one_l1_dual G FG) as [G0 Gp]. split; [reflexivity|]. assert (Wz : vopp (t_adj twice_map [0]) = [0]). { unfold twice_map, matrix. cbn. unfold dot, vsum. cbn. f_equal. lra. }
    assert (F0 : f [0] <= - 4). { destruct (At [0] eq_refl) as (_ & Lg & Kg & _). rewrite TF in Kg by auto. destruct (g [0]) as [|b [|]]; try discriminate. rewrite QQ in Kg. assert (K1 : b * b + 4 = dot [0] [b] - f [0]) by congruence. unfold dot, vsum in K1. cbn in K1. nra. }
    assert (F1 : forall w, length w = 1%nat -> - 4 <= f w). { intros w Lw. destruct (At w Lw) as ((Ub & _) & _). assert (B := Ub [0] 4 eq_refl). rewrite TF, QQ in B by auto. specialize (B ltac:(f_equal; lra)). destruct w as [|b [|]]; try discriminate. unfold dot, vsum in B. cbn in B. lra. }
    unfold objective. rewrite Wz, G0. split; [cbn; eauto|]. intros y Ly. specialize (Gp y Ly). specialize (F1 _ (La y Ly)). destruct (G y) as [gy|]; [|exact I]. cbn in *. lra.
  - unfold ct_point. cbn [ct_stack K center linear_term right_q coef]. rewrite EM. unfold twice_map, matrix. cbn. unfold dot, vsum. cbn. do 2 f_equal. field.
  - intros a. rewrite twice_at, one_l1_doc, QQ. cbn. f_equal. lra.
Qed.
(** A selector with a transform inside: the transform is not applied. *)
Definition three_q : iq := mk_iq 1 (FVec [3]) (FVec [0]) 0.
Theorem selector_wrong : exists T p K v, selector [0%nat] 1 twice_map = Ok T /\ affine_part (mk_affine_atom one_l1 T) (TSelector [0%nat]) = Ok p /\ container_of 1 [SZero 1 no_quad] [p] no_quad K /\
  (forall P Ld, ct_proximal P Ld K three_q = Ok v) /\ v = [2] /\
  (forall a, np_value p [a] false = Ok (Fin (Rabs (2 * a)))) /\ forall a, Rabs (2 * 1) + q_denot 1 three_q [1] + / 2 * (a - 1) * (a - 1) <= Rabs (2 * a) + q_denot 1 three_q [a].
Proof.
  set (T := mk_transform (fun x => t_lin twice_map (gather [0%nat] x)) (fun x => t_aff twice_map (gather [0%nat] x)) (fun u => M_affine.scatter [0%nat] (t_adj twice_map u) (zeros 1)) (Some None) 1 1).
  set (S1 := mk_transform (fun x => gather [0%nat] x) (fun x => gather [0%nat] x) (fun u => M_affine.scatter [0%nat] u (zeros 1)) (Some None) 1 1).
  assert (LS : linear_map 1 S1). { assert (B : built S1) by (apply (b_selector [0%nat] 1 (identity 1)); [constructor|repeat constructor; auto|repeat constructor|reflexivity|reflexivity]). split; [apply (built_good _ B)|]. repeat split; auto. }
  destruct (one_l1_part S1 (TSelector [0%nat]) LS eq_refl) as (p1 & G & Ep1 & Mp1 & Kp1 & X & _). { split; [reflexivity|]. split; [|reflexivity]. split; [repeat constructor; auto|]. intros g i [<-|[]] [<-|[]]. auto. }
  destruct (affine_part_exact 1 (mk_affine_atom one_l1 T) TGeneral (Lagrange 1)) as (p2 & d & Ep2 & _ & _ & Ed & _); cbn [aa_map aa_atom].
  { assert (B : built T) by (apply (b_selector [0%nat] 1 twice_map); [apply b_matrix; [repeat constructor|discriminate]|repeat constructor; auto|repeat constructor|reflexivity|reflexivity]). split; [apply (built_good _ B)|]. repeat split; auto. }
  { split; [reflexivity|]. split; [intros o E; discriminate|split; exact I]. } { cbn; lra. } { split; reflexivity. } { reflexivity. } { split; discriminate. } { cbn; auto. } { exact I. } cbn [aa_atom] in Ed.
  assert (EP : forall U, t_out U = 1%nat -> affine_part (mk_affine_atom one_l1 U) (TSelector [0%nat]) = Ok (mk_npart (aa_objective (mk_affine_atom one_l1 U)) U (TSelector [0%nat]) (of_atom d) (rmap of_atom (get_conjugate d)))).
  { intros U EU. unfold affine_part, aa_dual. cbn [aa_atom aa_map]. rewrite (copy_correct 1 one_l1 (Lagrange 1)); [|split; [reflexivity|split; [intros o E; discriminate|split; exact I]]|cbn; lra|split; reflexivity]. cbn [rbind]. rewrite EU. change (mk_atom (klass one_l1) 1 (a_lagrange one_l1) (a_bound one_l1) (a_offset one_l1) (a_quadratic one_l1)) with one_l1. rewrite Ed. reflexivity. }
  rewrite (EP S1 eq_refl) in Ep1. apply Ok_inj in Ep1. assert (SP := one_sound p1 G no_quad X zero_sound). destruct (container_form 1 _ _ _ _ _ SP) as (S & sq & _ & _ & EK & _ & _ & _ & _ & _ & _ & _ & _ & _ & _ & ES). set (K1 := mk_container [SZero 1 no_quad] [p1] S no_quad sq (zeros (t_in (st_map S)))). assert (CO : container_of 1 [SZero 1 no_quad] [p1] no_quad K1) by (apply EK; reflexivity).
  set (p := mk_npart (aa_objective (mk_affine_atom one_l1 T)) T (TSelector [0%nat]) (of_atom d) (rmap of_atom (get_conjugate d))).
  set (K := mk_container [SZero 1 no_quad] [p] (mk_stacked T (TSelector [0%nat]) (of_atom d) (rmap of_atom (get_conjugate d))) no_quad sq (zeros 1)).
  assert (ES' : S = mk_stacked S1 (TSelector [0%nat]) (of_atom d) (rmap of_atom (get_conjugate d))). { cbn [stacked_dual rbind] in ES. apply Ok_inj in ES. rewrite <- ES, <- Ep1. reflexivity. }
  assert (EKK : forall P Ld, ct_proximal P Ld K three_q = ct_proximal P Ld K1 three_q). { intros P Ld. unfold ct_proximal, total_q. cbn [ct_stack K K1 ct_quadratic ct_smoothq]. rewrite ES'. reflexivity. }
  assert (QA : forall a, q_denot 1 three_q [a] = / 2 * (a - 3) * (a - 3)). { intros a. unfold q_denot, quad_fun, sqn, dot, vsum. cbn. lra. }
  assert (Sq : sound_quad 1 three_q) by (split; [split; cbn; auto|exact I]).
  assert (Z0 : forall x, length x = 1%nat -> quads_sum 1 [SZero 1 no_quad] x = 0). { intros [|a [|]] L; try discriminate. unfold quads_sum, q_denot, quad_fun, sqn, dot, vsum. cbn. lra. }
  assert (Z1 : forall a, q_denot 1 no_quad [a] = 0). { intros a. unfold q_denot, quad_fun, sqn, dot, vsum. cbn. lra. }
  assert (R : forall P Ld, ct_proximal P Ld K three_q = Ok [2]). { intros P Ld. rewrite EKK. destruct (exact_branches P Ld 1 _ _ _ _ _ K1 three_q SP CO Sq) as (v & Ev & Lv & _ & M); [exact I|unfold total_coef; cbn; lra|cbn [K1 ct_stack]; rewrite ES'; discriminate|]. rewrite Ev. f_equal. destruct v as [|b [|]]; try discriminate. f_equal.
    specialize (M [2] eq_refl). unfold total_fun in M. rewrite !Z0, !Z1, !QA in M by auto. rewrite <- Ep1 in M. cbn [parts_fun np_map t_lin S1 gather map nth] in M. rewrite !one_l1_doc in M. cbn [ext_add ext_le] in M. rewrite (Rabs_pos_eq 2) in M by lra. destruct (Rle_dec 0 b); [rewrite Rabs_pos_eq in M by auto; nra|rewrite Rabs_left1 in M by lra; nra]. }
  exists T, p, K, [2]. split; [reflexivity|]. split; [apply EP; reflexivity|]. split; [|split; [exact R|split; [reflexivity|split]]].
  - exists K. split; [|reflexivity]. destruct CO as (K0 & EK0 & EK1). unfold new_container in *. cbn [rbind stacked_dual] in *. destruct (sum_quadratics zero_quad [SZero 1 no_quad]) as [sq'|]; [|discriminate]. cbn [rmap rbind] in *. apply Ok_inj in EK0. subst K0. assert (sq' = sq). { assert (E := f_equal ct_smoothq EK1). cbn in E. congruence. } subst sq'. reflexivity.
  - intros a. cbn [np_value p]. unfold aa_objective. cbn [aa_atom aa_map T t_lin gather map nth]. rewrite twice_at. rewrite (nonsmooth_objective_lagrange 1 one_l1 1); auto; [rewrite one_l1_doc; reflexivity|split; [reflexivity|split; [intros o E; discriminate|split; exact I]]|split; reflexivity|discriminate|discriminate].
  - intros a. rewrite !QA. rewrite (Rabs_pos_eq (2 * 1)) by lra. destruct (Rle_dec 0 (2 * a)); [rewrite Rabs_pos_eq by auto; nra|rewrite Rabs_left1 by lra; nra].
Qed.
(** solve(quadratic): the argument has no effect, so the result is the minimizer of another problem. *)
Theorem solve_wrong : exists p K, affine_part (mk_affine_atom one_l1 (identity 1)) TIdentity = Ok p /\ container_of 1 [SZero 1 no_quad] [p] no_quad K /\
  (forall loops fuel prm P Ld, ct_solve loops fuel prm P Ld K (Some three_q) = ct_solve loops fuel prm P Ld K None) /\
  (forall loops fuel prm P Ld K' v x, p_backtrack prm = true -> 0 < p_start_step prm -> p_monotonicity prm = false -> p_restart prm = None -> (1 <= Nat.min (min_of prm) (max_of prm))%nat -> (max_of prm <= 99)%nat -> ct_solve loops fuel prm P Ld K (Some three_q) = (K', Ok (v, x)) -> x = [0] /\ v = Fin 0) /\
  (forall a, ct_value K [a] false = Fin (Rabs a)) /\ (forall a, Rabs 2 + q_denot 1 three_q [2] + / 2 * (a - 2) * (a - 2) <= Rabs a + q_denot 1 three_q [a]) /\
  exists prm fuel, (p_backtrack prm = true /\ 0 < p_start_step prm /\ p_monotonicity prm = false /\ p_restart prm = None /\ (1 <= Nat.min (min_of prm) (max_of prm))%nat /\ (max_of prm <= 99)%nat) /\ forall P Ld, exists K' v x, ct_solve (max_of prm) fuel prm P Ld K (Some three_q) = (K', Ok (v, x)).
Proof.
  destruct (one_l1_part (identity 1) TIdentity (identity_linear 1 (le_n 1)) eq_refl) as (p & G & Ep & Mp & Kp & X & _). { split; auto. }
  assert (SP := one_sound p G no_quad X zero_sound). destruct (container_form 1 _ _ _ _ _ SP) as (S & sq & _ & _ & EK & _ & _ & _ & LM & _ & _ & _ & _ & _ & _ & ES). set (K := mk_container [SZero 1 no_quad] [p] S no_quad sq (zeros (t_in (st_map S)))). assert (CO : container_of 1 [SZero 1 no_quad] [p] no_quad K) by (apply EK; reflexivity).
  assert (EI : t_in (st_map S) = 1%nat) by apply LM. assert (SK : st_kind S = TIdentity). { cbn [stacked_dual rbind] in ES. apply Ok_inj in ES. rewrite <- ES. exact Kp. }
  assert (GS : Forall (good_smooth 1) [SZero 1 no_quad]) by (constructor; [apply zero_smooth_good|constructor]).
  assert (EXP : forall P Ld, exact_problem 1 (smooth_sum [SZero 1 no_quad]) (container_fun 1 [SZero 1 no_quad] [atom_doc 1 one_l1 (Lagrange 1)] [p] no_quad) (ct_composite P Ld K)) by (intros P Ld; apply (container_exact P Ld 1 _ [G]); auto; [cbn; lra|cbn [K ct_stack]; rewrite SK; discriminate]).
  set (h := container_fun 1 [SZero 1 no_quad] [atom_doc 1 one_l1 (Lagrange 1)] [p] no_quad) in *. set (f := smooth_sum [SZero 1 no_quad]) in *.
  assert (OB : forall a, objective f h [a] = Fin (Rabs a)). { intros a. unfold objective, f, h, container_fun, smooth_sum. cbn [fold_right s_func parts_fun]. rewrite Mp. cbn [identity t_lin]. rewrite one_l1_doc. cbn [ext_add]. f_equal. unfold quads_sum, q_denot, quad_fun, sqn, dot, vsum. cbn. lra. }
  assert (HB : forall a, h [a] = Fin (Rabs a)). { intros a. unfold h, container_fun. cbn [parts_fun]. rewrite Mp. cbn [identity t_lin]. rewrite one_l1_doc. cbn [ext_add]. f_equal. unfold quads_sum, q_denot, quad_fun, sqn, dot, vsum. cbn. lra. }
  assert (CV : forall a, ct_value K [a] false = Fin (Rabs a)). { intros a. destruct (container_value 1 _ _ _ _ _ K [a] false SP CO eq_refl) as (_ & _ & E). { cbn [parts_fun]. rewrite Mp. cbn [identity t_lin]. rewrite one_l1_doc. cbn. eauto. } rewrite E. fold h f. apply OB. }
  assert (ZS : zeros (t_in (st_map S)) = [0]) by (rewrite EI; reflexivity).
  assert (Q0 : exists t, q_add (ct_quadratic K) (AQuad three_q) = Ok t). { destruct (add_quad 1 no_quad three_q) as (t & E & _); [split; exact I|split; cbn; auto|cbn; auto|exact I|]. exists t. exact E. } destruct Q0 as (t0 & Q0).
  assert (GD : forall P Ld, good_start h (ct_composite P Ld K) [0]). { intros P Ld. unfold good_start. rewrite HB. apply (ex_nonsmooth _ _ _ _ (EXP P Ld)); auto. }
  exists p, K. split; [exact Ep|]. split; [exact CO|]. split; [|split; [|split; [exact CV|split]]].
  - intros loops fuel prm P Ld. unfold ct_solve. rewrite Q0. reflexivity.
  - intros loops fuel prm P Ld K' v x Hb Hs Hm Hr Hk Hx E. unfold ct_solve in E. rewrite Q0 in E. change (ct_coefs K) with (zeros (t_in (st_map S))) in E. rewrite ZS in E. destruct (fit loops fuel prm (ct_composite P Ld K) [0] None false) as [s|] eqn:Es; [|discriminate]. cbv zeta in E. injection E as EK' Ev Ex.
    assert (SF : steps_fit 1 prm (ct_composite P Ld K)) by (left; auto). destruct (exact_fit _ _ _ _ (EXP P Ld) prm SF loops fuel [0] None false s eq_refl (GD P Ld) Hs Es) as (Bad & _ & _ & Ls). destruct (fit_explained _ _ _ _ _ _ _ _ Es) as (_ & _ & _ & It).
    destruct (fista_rate _ _ _ _ (EXP P Ld) prm [0] 0 SF Hm Hr eq_refl ltac:(rewrite OB, Rabs_R0; reflexivity)) with (loops := loops) (fuel := fuel) (x0 := [0]) (st := @None R) (att := false) (s := s) as (Fs & EFs & Rate & _); auto; [|lia|].
    { intros y Ly. destruct y as [|b [|]]; try discriminate. rewrite OB. cbn. apply Rabs_pos. }
    replace (sqn (vsub [0] [0])) with 0 in Rate by (unfold sqn, dot, vsum; cbn; lra). rewrite Rmult_0_r in Rate. unfold Rdiv in Rate. rewrite Rmult_0_l in Rate. rewrite Ex in *. destruct x as [|b [|]]; try discriminate. rewrite OB in EFs. assert (Fs = Rabs b) by congruence. subst Fs. assert (Rabs b = 0) by (assert (0 <= Rabs b) by apply Rabs_pos; lra).
    assert (b = 0) by (destruct (Req_dec b 0) as [|N]; auto; apply Rabs_no_R0 in N; contradiction). subst b. split; auto. rewrite <- Ev. assert (CV2 := CV 0). rewrite Rabs_R0 in CV2. rewrite <- CV2. reflexivity.
  - intros a. assert (QA : forall a, q_denot 1 three_q [a] = / 2 * (a - 3) * (a - 3)) by (intros b; unfold q_denot, quad_fun, sqn, dot, vsum; cbn; lra). rewrite !QA. rewrite (Rabs_pos_eq 2) by lra. destruct (Rle_dec 0 a); [rewrite Rabs_pos_eq by auto; nra|rewrite Rabs_left1 by lra; nra].
  - set (prm := mk_params None (Some 5%nat) (Some 50%nat) true 1 None false false true). exists prm.
    destruct (fit_terminates 1 _ _ _ (EXP prm 1) prm (or_introl eq_refl) 1 ltac:(lra)) with (x0 := [0]) (st := @None R) (att := false) as (fuel0 & Kf); auto.
    { intros x y Lx Ly. destruct x as [|a [|]]; try discriminate. destruct y as [|b [|]]; try discriminate. change (norm (vsub [0 + 0] [0 + 0]) <= 1 * norm (vsub [a] [b])). assert (E0 : vsub [0 + 0] [0 + 0] = zeros 1) by (cbn; f_equal; lra). rewrite E0. unfold norm at 1. rewrite sqn_zeros, sqrt_0. assert (0 <= norm (vsub [a] [b])) by apply norm_nonneg. lra. }
    { cbn. lra. }
    exists fuel0. split; [split; [reflexivity|split; [cbn; lra|split; [reflexivity|split; [reflexivity|split; [apply Nat.leb_le; reflexivity|apply Nat.leb_le; reflexivity]]]]]|].
    intros P Ld. destruct (Kf (max_of prm) fuel0 (le_n _) (le_n _)) as (s & Es). unfold ct_solve. rewrite Q0. change (ct_coefs K) with (zeros (t_in (st_map S))). rewrite ZS.
    assert (EE : ct_composite P Ld K = ct_composite prm 1 K). { unfold ct_composite, ct_proximal. cbn [K ct_stack]. rewrite SK. reflexivity. } rewrite EE. rewrite Es. cbv zeta. eauto.
Qed.
