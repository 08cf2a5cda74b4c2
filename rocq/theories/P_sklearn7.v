(** A fit that meets the hypotheses: two cases, the lasso. *)
From Coq Require Import Reals List Arith Lra Lia Bool.
From Verif Require Import M_affine M_loss M_smooth M_buffer Vec Spec M_quad M_prox M_semi SpecAtom M_shift SpecBase SpecMode M_mode SpecModed M_cox SpecLoss SpecAffine SpecSmooth M_sklearn SpecSklearn P_quad P_sep P_sklearn1 P_sklearn2 P_sklearn3.
Import ListNotations.
Local Open Scope R_scope.

Definition ex_h : heap := [[1; 1]].
Definition ex_e : est := mk_est EGaussian false false false 1 None R2 None None.
Definition ex_X : list vec := [[1]; [1]].
Definition ex_atom : moded := mk_moded (Some 1) None (mk_base 1 None (mk_iq 0 (FScal 0) (FScal 0) 0)).
Definition ex_P (v : vec) : ext := Fin (vsum (map Rabs v)).
Definition ex_value (v : vec) (l : R) (_ : bool) : res ext := Ok (ext_scale l (ex_P v)).
Definition ex_constraint (v : vec) (b : R) : res ext := Ok (gmode ex_P (Bound b) v).
Lemma ex_holds : holds ex_h ex_e 2 (Y1 0%nat) (Gaussian [1; 1]) None None.
Proof. exists [[1; 1]]. split; [|split; [reflexivity|split; [exact I|discriminate]]]. left. repeat (split; [reflexivity|]). exists 0%nat. repeat split; auto. Qed.
Lemma ex_design : design 2 1 ex_X.
Proof. split; [reflexivity|]. constructor; [reflexivity|constructor; [reflexivity|constructor]]. Qed.
Lemma ex_wf : moded_wf 1 ex_atom (Lagrange 1).
Proof. split; [reflexivity|]. split; [reflexivity|]. split; [cbn; lra|]. split; [reflexivity|]. split; [intros o Q; discriminate|]. split; exact I. Qed.
Lemma ex_value_ok : forall v l, length v = 1%nat -> ex_value v l true = Ok (ext_scale l (ex_P v)).
Proof. reflexivity. Qed.
Lemma ex_loss : forall x, doc_loss (Gaussian [1; 1]) 2 1 (weights 2 None) (minus (mat_vec ex_X [x]) None) = (x - 1) * (x - 1).
Proof. intros x. unfold doc_loss, sum_over, weights, ones, const_vec, ex_X, mat_vec, dot, vsum, vmul. cbn. lra. Qed.
Lemma ex_doc : forall x, moded_doc 1 ex_P ex_atom (Lagrange 1) [x] = Fin (Rabs x).
Proof.
  intros x. unfold moded_doc, base_doc, base_off. cbn. unfold quad_fun, sqn, dot, vsub, vsum, ex_P. cbn. f_equal. rewrite Rminus_0_r. lra.
Qed.
Lemma one_entry : forall v : vec, length v = 1%nat -> exists a, v = [a].
Proof. intros [|a [|b v]] L; cbn in L; try lia. eauto. Qed.
Lemma ex_solver : forall h1 g b F, loglike_factory ex_h ex_e ex_X 1 (Y1 0%nat) = (h1, Ok g) -> (fun (_ : heap) (_ : glm) (_ : moded) => Ok [1 / 2]) h1 g ex_atom = Ok b ->
  (forall x, length x = 1%nat -> problem_objective h1 g ex_value ex_constraint ex_atom x = Ok (F x)) -> is_argmin 1 F b.
Proof.
  intros h1 g b F E Sv HF. injection Sv as <-.
  assert (V : forall a, F [a] = Fin ((a - 1) * (a - 1) + Rabs a)).
  { intros a. assert (Q := HF [a] eq_refl). rewrite (objective_ok ex_h ex_e 2 1 ex_X (Y1 0%nat) _ None None ex_P ex_value ex_constraint ex_atom (Lagrange 1) h1 g [a] ex_holds (le_n 2) ex_design) in Q; auto; [|cbn; lra|exact ex_wf|intros v Lv; reflexivity].
    apply Ok_inj in Q. rewrite <- Q, ex_doc. rewrite (exact_value (Gaussian [1; 1]) 2) by (cbn; auto). rewrite ex_loss. reflexivity. }
  split; [reflexivity|]. split; [rewrite V; eauto|]. intros v Lv. destruct (one_entry v Lv) as (a & ->). rewrite !V. cbn. rewrite (Rabs_right (1 / 2)) by lra.
  assert (A := Rle_abs a). assert (B := Rle_0_sqr (a - 1 / 2)). unfold Rsqr in B. lra.
Qed.
Lemma ex_fit : exists h' e', fit_base (fun _ _ _ => Ok [1 / 2]) (Ok ex_atom) ex_h ex_e ex_X 1 (Y1 0%nat) = (h', e', Ok tt) /\ e_coefs e' = Some [1 / 2].
Proof.
  destruct (loglike_ok ex_h ex_e 2 1 ex_X (Y1 0%nat) _ None None ex_holds (le_n 2) ex_design) as (h1 & g & E & _); [cbn; lra|]. unfold fit_base. rewrite E. cbn. eauto.
Qed.
(** with alpha 1/2 the fit minimizes (x-1)^2 + |x|/2 + x^2/4 *)
Lemma ex_enet_solver : forall h1 g a b F, loglike_factory ex_h ex_e ex_X 1 (Y1 0%nat) = (h1, Ok g) -> (exists s a0, (fun _ : vec => Ok ex_atom) s = Ok a0 /\ enet_atom (1 / 2) a0 = Ok a) ->
  (fun (_ : heap) (_ : glm) (_ : moded) => Ok [3 / 5]) h1 g a = Ok b ->
  (forall x, length x = 1%nat -> problem_objective h1 g ex_value ex_constraint a x = Ok (F x)) -> is_argmin 1 F b.
Proof.
  intros h1 g a b F E (s & a0 & Ea & En) Sv HF. injection Sv as <-. injection Ea as <-.
  destruct (enet_objective 1 ex_P ex_value ex_constraint ex_atom 1 (1 / 2) ex_wf ltac:(lra) ltac:(lra) ex_value_ok) as (a2 & E2 & Wf & V2). rewrite En in E2. injection E2 as <-.
  assert (V : forall x, F [x] = Fin ((x - 1) * (x - 1) + (Rabs x / 2 + x * x / 4))).
  { intros x. assert (Q := HF [x] eq_refl). rewrite (objective_ok ex_h ex_e 2 1 ex_X (Y1 0%nat) _ None None ex_P ex_value ex_constraint a (Lagrange ((1 - 1 / 2) * 1)) h1 g [x] ex_holds (le_n 2) ex_design) in Q; [|cbn; lra|exact Wf|intros v Lv; reflexivity|auto|auto].
    apply Ok_inj in Q. rewrite <- Q. rewrite (exact_value (Gaussian [1; 1]) 2) by (cbn; auto). rewrite ex_loss.
    specialize (V2 [x] eq_refl). rewrite (P_gauge.moded_objective_correct 1 ex_P ex_value ex_constraint a _ [x] true Wf eq_refl) in V2; [|intros v Lv; reflexivity]. apply Ok_inj in V2. rewrite V2.
    cbn. unfold ex_P, sqn, dot, vsum, vmul. cbn. f_equal. lra. }
  split; [reflexivity|]. split; [rewrite V; eauto|]. intros v Lv. destruct (one_entry v Lv) as (c & ->). rewrite !V. cbn. rewrite (Rabs_right (3 / 5)) by lra.
  assert (A := Rle_abs c). assert (B := Rle_0_sqr (c - 3 / 5)). unfold Rsqr in B. lra.
Qed.
Lemma ex_enet_fit : exists h' e', fit_lagrange (fun _ _ _ => Ok [3 / 5]) (fun _ => Ok ex_atom) (1 / 2) ex_h ex_e ex_X 1 (Y1 0%nat) = (h', e', Ok tt) /\ e_coefs e' = Some [3 / 5].
Proof.
  destruct (loglike_ok ex_h ex_e 2 1 ex_X (Y1 0%nat) _ None None ex_holds (le_n 2) ex_design) as (h1 & g & E & _ & _ & _ & _ & _ & Ev & _ & Gr & _); [cbn; lra|]. unfold fit_lagrange. rewrite E, Ev, Gr. cbn [rbind]. unfold construct_atom. cbn [rbind].
  destruct (enet_objective 1 ex_P ex_value ex_constraint ex_atom 1 (1 / 2) ex_wf ltac:(lra) ltac:(lra) ex_value_ok) as (a2 & E2 & _). rewrite E2. cbn. eauto.
Qed.
