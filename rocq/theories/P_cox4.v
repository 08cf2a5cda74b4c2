(** cox_loglike objects: values after any history, shared gradient array, subsamples. *)
From Coq Require Import Reals List Lra Lia Psatz Arith Bool Permutation.
From Verif Require Import M_affine P_affine P_affine2 M_buffer P_buffer Vec Spec M_quad M_loss SpecLoss SpecConvex P_quad P_calc P_sep P_loss P_loss4 P_loss5 P_cv P_path2 M_cox SpecCox SpecCoxObj P_cox P_cox2 P_cox3.
Import ListNotations.
Local Open Scope R_scope.

(** the object is k and its arrays are in the store *)
Definition alive (h : heap) (k : cox) (n : nat) (w : vec) : Prop :=
  read h (k_cw k) = w /\ length (read h (k_G k)) = n /\ k_cw k <> k_G k /\ (k_cw k < length h)%nat /\ (k_G k < length h)%nat.
Lemma gradient_length : forall D b g eta cw g', cox_gradient D b g eta cw = Ok g' -> length g' = length g.
Proof.
  intros D b g eta cw g' E. unfold cox_gradient in E. destruct (same_length _ _); [|discriminate]. destruct (update_exp _ _ _ _ _ _) as [e acc].
  destruct (update_outer_1st _ _ _ _ _ _ _); [|discriminate]. cbn in E. apply Ok_inj in E. subst g'. unfold gradient_c. generalize (seq 0 (length eta)) as l. revert g.
  intros g l. revert g. induction l as [|i r IH]; intros g; cbn [fold_left]; auto. rewrite IH, set_at_length. auto.
Qed.
Lemma weigh_alive : forall h k n w arg m, alive h k n w -> (forall r, arg = Some r -> ~ In r [k_cw k; k_G k]) -> alive (fst (cox_weigh h k arg m)) k n w.
Proof.
  intros h k n w arg m (A1 & A2 & A3 & A4 & A5) F. unfold cox_weigh. destruct arg as [r|]; cbn [fst].
  - assert (N := F r eq_refl). cbn in N. unfold alive. rewrite !read_write_other by (intros C; subst; tauto). rewrite write_length. auto.
  - unfold alive. rewrite !read_write_other by lia. rewrite !read_app by auto. rewrite write_length, app_length. repeat split; auto; lia.
Qed.
Lemma write_alive : forall h k n w g, alive h k n w -> length g = n -> alive (write h (k_G k) g) k n w.
Proof.
  intros h k n w g (A1 & A2 & A3 & A4 & A5) L. unfold alive. rewrite read_write_other by auto. rewrite read_write_same by auto. rewrite write_length. auto.
Qed.
Lemma app_alive : forall h k n w v, alive h k n w -> alive (h ++ [v]) k n w.
Proof. intros h k n w v (A1 & A2 & A3 & A4 & A5). unfold alive. rewrite !read_app by auto. rewrite app_length. repeat split; auto; lia. Qed.
Lemma call_alive : forall h k n w o, alive h k n w -> fair n [k_cw k; k_G k] o -> alive (do_call k h o) k n w.
Proof.
  intros h k n w [b arg x m|b arg x z] A F; cbn in F |- *.
  - unfold cox_eval. destruct F as (_ & _ & F). assert (A1 := weigh_alive h k n w arg (length x) A F). destruct (cox_weigh h k arg (length x)) as [h1 c]. cbn [fst] in A1. destruct m; cbn [fst]; auto.
    + destruct (cox_gradient _ _ _ _ _) as [g|] eqn:E; auto. apply gradient_length in E. rewrite (proj1 (proj2 A1)) in E. assert (A2 := write_alive h1 k n w g A1 E). unfold scale_ref. destruct (Req_EM_T _ _); auto. apply app_alive. auto.
    + destruct (cox_gradient _ _ _ _ _) as [g|] eqn:E; auto. apply gradient_length in E. rewrite (proj1 (proj2 A1)) in E. assert (A2 := write_alive h1 k n w g A1 E). destruct (cox_objective _ _ _ _); auto.
      unfold scale_ref. destruct (Req_EM_T _ _); auto. apply app_alive. auto.
  - unfold cox_hess. destruct F as (_ & _ & F). assert (A1 := weigh_alive h k n w arg (length x) A F). destruct (cox_weigh h k arg (length x)) as [h1 c]. auto.
Qed.
Lemma calls_alive : forall os h k n w, alive h k n w -> Forall (fair n [k_cw k; k_G k]) os -> alive (calls k h os) k n w.
Proof. induction os as [|o os IH]; intros h k n w A F; auto. cbn [calls fold_left]. apply IH; [apply call_alive; auto; apply (Forall_inv F)|apply (Forall_inv_tail F)]. Qed.
Lemma new_alive : forall h argsort T cens c off q w h' k, new_cox h argsort T cens c off q w = (h', Ok k) ->
  alive h' k (length T) (cox_weights T w) /\ k_data k = cdata_of T cens (argsort T) /\ k_coef k = c /\ k_cw k = length h /\ k_G k = S (length h) /\
  (match off with Some v => if all_zero v then k_offset k = None else k_offset k = Some v | None => k_offset k = None end) /\ nonneg (cox_weights T w) /\ 0 <= c.
Proof.
  intros h argsort T cens c off q w h' k E. unfold new_cox in E. destruct (Rlt_dec c 0) as [|Nc]; [discriminate|]. destruct (match w with Some w => any_neg w | None => false end) eqn:Ew; [discriminate|]. injection E as <- <-. cbn.
  assert (R0 : read (h ++ [match w with Some w => w | None => ones (length T) end; zeros (length T)]) (length h) = cox_weights T w) by (unfold read; rewrite app_nth2 by lia; rewrite Nat.sub_diag; auto).
  assert (R1 : read (h ++ [match w with Some w => w | None => ones (length T) end; zeros (length T)]) (S (length h)) = zeros (length T)) by (unfold read; rewrite app_nth2 by lia; replace (S (length h) - length h)%nat with 1%nat by lia; auto).
  split; [|split; [|split; [|split; [|split; [|split; [|split]]]]]]; auto.
  - unfold alive. cbn. rewrite app_length. cbn. split; [exact R0|]. split; [rewrite R1; unfold zeros, const_vec; rewrite repeat_length; auto|]. lia.
  - destruct off as [v|]; auto. destruct (all_zero v); auto.
  - destruct w as [w|]; cbn; [apply any_neg_false; auto|]. unfold ones, const_vec. apply Forall_forall. intros a I. apply repeat_spec in I. lra.
  - lra.
Qed.
Lemma minus_stored : forall off k x n, length x = n -> off_fits n off -> (match off with Some v => if all_zero v then k_offset k = None else k_offset k = Some v | None => k_offset k = None end) -> sub_offset (k_offset k) x = minus x off.
Proof.
  intros off k x n Lx O H. destruct off as [v|]; cbn in *; [|rewrite H; auto]. destruct (all_zero v) eqn:Z; rewrite H; cbn; auto. symmetry. apply -> P_quad.all_zero_spec in Z.
  apply (nth_ext _ _ 0 0); [unfold vsub; rewrite vzip_length by congruence; auto|]. intros i Hi. unfold vsub in *. rewrite vzip_length in Hi by congruence. rewrite (nth_zip0 _ _ _ n) by (auto; lia).
  rewrite Z. unfold zeros, const_vec. rewrite nth_repeat. ring.
Qed.
Section Object.
Variables (h : heap) (argsort : vec -> list nat) (T : vec) (cens : list nat) (c : R) (off : option vec) (q : option iq) (w0 : option vec) (h0 : heap) (k : cox).
Let n := length T.
Let w := cox_weights T w0.
Hypothesis Arg : sorting argsort.
Hypothesis New : new_cox h argsort T cens c off q w0 = (h0, Ok k).
Hypothesis Lc : length cens = n.
Hypothesis Lw : length w = n.
Hypothesis Lo : off_fits n off.
Hypothesis Cov : covered T w.
Definition cox_doc (x : vec) : R := c * cox_loss T cens w (minus x off).
Lemma minus_len : forall x : vec, length x = n -> length (minus x off) = n.
Proof. intros x Lx. destruct off as [v|]; cbn in *; auto. unfold vsub. rewrite vzip_length; congruence. Qed.
Lemma weigh_none : forall h1 (x : vec), alive h1 k n w -> length x = n -> let '(h2, r) := cox_weigh h1 k None (length x) in read h2 r = w /\ read h2 (k_G k) = read h1 (k_G k) /\ alive h2 k n w.
Proof.
  intros h1 x A Lx. assert (B := weigh_alive h1 k n w None (length x) A ltac:(discriminate)). destruct A as (A1 & A2 & A3 & A4 & A5). unfold cox_weigh in *. cbn [fst] in B. split; [|split; [|exact B]].
  - rewrite read_write_same by (rewrite app_length; cbn; lia). rewrite read_new, read_app by auto. rewrite A1. apply vmul_ones. congruence.
  - rewrite read_write_other by lia. rewrite read_app by auto. auto.
Qed.
Lemma scaled_gradient : forall (x g : vec), length x = n -> is_gradient n (cox_loss T cens w) (minus x off) g -> is_gradient n cox_doc x (map (fun a => a * c) g).
Proof.
  intros x g Lx G. assert (G1 := gradient_minus n (cox_loss T cens w) off x g Lo Lx G). destruct G1 as [L H]. split; [rewrite map_length; auto|]. intros d Ld.
  assert (Em : map (fun a => a * c) g = vscal c g) by (unfold vscal; apply map_ext; intros; ring). rewrite Em, dot_scal_l by congruence. unfold cox_doc.
  apply (derivable_pt_lim_scal (fun t => cox_loss T cens w (minus (vadd x (vscal t d)) off))). apply H. auto.
Qed.
Theorem eval_after : forall os b (x : vec), Forall (fair n [k_cw k; k_G k]) os -> sized n b -> length x = n -> let h1 := calls k h0 os in
  (exists h2, cox_eval h1 k b None x EvFunc = (h2, Ok (KFunc (cox_doc x)))) /\
  (exists h2 r, cox_eval h1 k b None x EvGrad = (h2, Ok (KGrad r)) /\ is_gradient n cox_doc x (read h2 r)) /\
  (exists h2 r, cox_eval h1 k b None x EvBoth = (h2, Ok (KBoth (cox_doc x) r)) /\ is_gradient n cox_doc x (read h2 r)).
Proof.
  intros os b x Fr B Lx. cbv zeta. destruct (new_alive _ _ _ _ _ _ _ _ _ _ New) as (A0 & Kd & Kc & _ & _ & Ko & Nw & Pc). fold n w in A0, Nw. assert (A := calls_alive os h0 k n w A0 Fr). set (h1 := calls k h0 os) in *.
  unfold cox_eval. assert (W := weigh_none h1 x A Lx). destruct (cox_weigh h1 k None (length x)) as [h2 r]. destruct W as (W1 & W2 & W3). rewrite Kd, W1, (minus_stored off k x n Lx Lo Ko). assert (Lm := minus_len x Lx). assert (So := Arg T).
  assert (Lg : length (read h2 (k_G k)) = n) by apply W3. unfold n in *. rewrite (objective_ok T cens (argsort T) w So Lc Lw Nw b _ Cov B Lm).
  destruct (gradient_ok T cens (argsort T) w So Lc Lw Nw b _ _ Cov B Lg Lm) as (g & Eg & Gg). rewrite Eg. cbn [rmap]. rewrite Kc, scale_eq. fold (cox_doc x).
  assert (G' := scaled_gradient x g Lx Gg). split; [eauto|].
  assert (Q : exists h3 r, scale_ref (write h2 (k_G k) g) c (k_G k) = (h3, r) /\ is_gradient (length T) cox_doc x (read h3 r)).
  { unfold scale_ref. destruct W3 as (_ & _ & _ & _ & A5). destruct (Req_EM_T c 1) as [->|].
    - eexists; eexists. split; [reflexivity|]. rewrite read_write_same by auto. replace g with (map (fun a => a * 1) g); auto. rewrite <- (map_id g) at 2. apply map_ext. intros; ring.
    - eexists; eexists. split; [reflexivity|]. rewrite read_new, read_write_same by auto. auto. }
  destruct Q as (h3 & r3 & E3 & G3). rewrite E3. split; eauto 6.
Qed.
Theorem hess_after : forall os b (x z : vec), Forall (fair n [k_cw k; k_G k]) os -> sized n b -> length x = n -> length z = n -> forall G, gradient_of n (cox_loss T cens w) G ->
  exists h2 H, is_jacobian n G (minus x off) H /\ cox_hess (calls k h0 os) k b None x z = (h2, Ok (H z)).
Proof.
  intros os b x z Fr B Lx Lz G HG. destruct (new_alive _ _ _ _ _ _ _ _ _ _ New) as (A0 & Kd & Kc & _ & _ & Ko & Nw & Pc). fold n w in A0, Nw. assert (A := calls_alive os h0 k n w A0 Fr). set (h1 := calls k h0 os) in *.
  unfold cox_hess. assert (W := weigh_none h1 x A Lx). destruct (cox_weigh h1 k None (length x)) as [h2 r]. destruct W as (W1 & W2 & W3). rewrite Kd, W1, (minus_stored off k x n Lx Lo Ko). assert (Lm := minus_len x Lx). assert (So := Arg T).
  assert (Lz0 : length (zeros (length (minus x off))) = n) by (unfold zeros, const_vec; rewrite repeat_length; auto).
  destruct (hessian_ok T cens (argsort T) w So Lc Lw Nw b (zeros (length (minus x off))) (minus x off) G Cov B Lz0 Lm HG) as (H & J & E). exists h2, H. split; auto. f_equal. apply E. auto.
Qed.
End Object.
(** with coef 1 every gradient is the one array _G *)
Theorem gradient_array : forall h k b arg x h' r, k_coef k = 1 -> cox_eval h k b arg x EvGrad = (h', Ok (KGrad r)) -> r = k_G k.
Proof.
  intros h k b arg x h' r C E. unfold cox_eval in E. destruct (cox_weigh h k arg (length x)) as [h1 c]. destruct (cox_gradient _ _ _ _ _); [|discriminate]. unfold scale_ref in E. rewrite C in E.
  destruct (Req_EM_T 1 1); [|congruence]. injection E as _ <-. auto.
Qed.
(** a subsample without the latest cases *)
Theorem subsample_nan : forall h argsort T cens c off q w0 h0 k idx h1 k1 i b x, sorting argsort -> new_cox h argsort T cens c off q w0 = (h0, Ok k) -> length cens = length T -> length (cox_weights T w0) = length T -> off_fits (length T) off ->
  subsample_cox h0 argsort k idx = (h1, Ok k1) -> (i < length T)%nat -> (forall j, In j idx -> nth j T 0 < nth i T 0) -> sized (length T) b -> length x = length T ->
  snd (cox_eval h1 k1 b None x EvFunc) = Err NaNResult /\ snd (cox_eval h1 k1 b None x EvGrad) = Err NaNResult /\ snd (cox_eval h1 k1 b None x EvBoth) = Err NaNResult.
Proof.
  intros h argsort T cens c off q w0 h0 k idx h1 k1 i b x Arg New Lc Lw Lo Sub Hi Late B Lx.
  destruct (new_alive _ _ _ _ _ _ _ _ _ _ New) as (A0 & Kd & Kc & Kw & KG & Ko & Nw & Pc). unfold subsample_cox, copy_cox in Sub. rewrite Kd in Sub. cbn [cdata_of c_times c_cens] in Sub.
  destruct (new_cox h0 argsort T cens (k_coef k) (k_offset k) (Some (k_quad k)) (Some (read h0 (k_cw k)))) as [h2 [k2|]] eqn:Cp; [|discriminate].
  destruct (new_alive _ _ _ _ _ _ _ _ _ _ Cp) as (A2 & Kd2 & Kc2 & Kw2 & KG2 & Ko2 & Nw2 & Pc2). cbn [cox_weights] in *. destruct A0 as (R0 & _). rewrite R0 in *. set (w := cox_weights T w0) in *.
  destruct (negb _) eqn:Ix; [discriminate|]. injection Sub as <- <-. destruct A2 as (R2 & G2 & D2 & B2 & B3). rewrite R2. set (w2 := vmul w (indicator (length w) idx)).
  assert (L2 : length w2 = length T) by (unfold w2, vmul; rewrite vzip_length; unfold indicator; rewrite ?map_length, ?seq_length; auto).
  assert (E2 : forall j, (j < length T)%nat -> nth j w2 0 = if existsb (Nat.eqb j) idx then nth j w 0 else 0).
  { intros j Hj. unfold w2, vmul. rewrite (nth_zip0 _ _ _ (length T)) by (auto; unfold indicator; rewrite ?map_length, ?seq_length; auto). unfold indicator. rewrite nth_seq_map by lia. destruct (existsb _ _); ring. }
  assert (N2 : nonneg w2). { unfold nonneg. apply Forall_forall. intros a I. apply (In_nth _ _ 0) in I. destruct I as (j & Hj & <-). rewrite L2 in Hj. rewrite E2 by auto. destruct (existsb _ _); [|lra]. unfold nonneg in Nw. rewrite Forall_forall in Nw. apply Nw, nth_In. lia. }
  set (h3 := write h2 (k_cw k2) w2). assert (A3 : alive h3 k2 (length T) w2).
  { unfold alive, h3. rewrite read_write_same by auto. rewrite read_write_other by auto. rewrite write_length. auto. }
  assert (Z : forall j, (j < length T)%nat -> nth i T 0 <= nth j T 0 -> nth j w2 0 = 0).
  { intros j Hj L. rewrite E2 by auto. destruct (existsb (Nat.eqb j) idx) eqn:Ej; auto. exfalso. apply existsb_exists in Ej. destruct Ej as (j' & I & Ej). apply Nat.eqb_eq in Ej. subst j'. specialize (Late j I). lra. }
  assert (Lo2 : off_fits (length T) (k_offset k)). { destruct off as [v|]; [destruct (all_zero v)|]; rewrite Ko; cbn; auto. }
  assert (S2 : sub_offset (k_offset k2) x = minus x (k_offset k)) by (apply (minus_stored (k_offset k) k2 x (length T)); auto).
  assert (Lm : length (minus x (k_offset k)) = length T) by (destruct (k_offset k) as [v|]; cbn in *; auto; unfold vsub; rewrite vzip_length; congruence).
  unfold cox_eval. assert (W' : let '(h4, r) := cox_weigh h3 k2 None (length x) in read h4 r = w2 /\ read h4 (k_G k2) = read h3 (k_G k2) /\ alive h4 k2 (length T) w2).
  { assert (Q := weigh_alive h3 k2 (length T) w2 None (length x) A3 ltac:(discriminate)). destruct A3 as (A1 & A2' & A3' & A4 & A5). unfold cox_weigh in *. cbn [fst] in Q. split; [|split; [|exact Q]].
    - rewrite read_write_same by (rewrite app_length; cbn; lia). rewrite read_new, read_app by auto. rewrite A1. apply vmul_ones. congruence.
    - rewrite read_write_other by lia. rewrite read_app by auto. auto. }
  destruct (cox_weigh h3 k2 None (length x)) as [h4 r]. destruct W' as (W1 & W2 & W3). rewrite W1, Kd2, S2. assert (Lg : length (read h4 (k_G k2)) = length T) by apply W3.
  destruct (uncovered_nan T cens (argsort T) w2 (Arg T) Lc L2 b (read h4 (k_G k2)) (minus x (k_offset k)) i B Lg Lm Hi Z) as [E1 E3]. rewrite E1, E3. cbn. auto.
Qed.
