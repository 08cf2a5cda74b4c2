(** The data estimators read from y, and the loss they fit. *)
From Coq Require Import Reals List Arith Lra Lia Bool.
From Verif Require Import M_affine M_loss M_buffer Vec Spec M_quad M_semi M_shift M_mode M_cox SpecLoss M_sklearn SpecSklearn P_quad P_buffer P_loss P_loss2 P_loss4 P_loss5.
Import ListNotations.
Local Open Scope R_scope.

(** ** Columns *)
Definition resp_shape (n : nat) (rs : list vec) : resp := match rs with [v] => RVec v | _ => RMat n rs end.
Lemma squeeze_big : forall n rs, (2 <= n)%nat -> squeeze n rs = resp_shape n rs.
Proof. intros n rs H. unfold squeeze, resp_shape. assert (E : Nat.eqb n 1 = false) by (apply Nat.eqb_neq; lia). destruct rs as [|a [|b rs]]; rewrite E; auto. Qed.
Lemma firstn_exact : forall {A} (a b : list A) k, k = length a -> firstn k (a ++ b) = a.
Proof. intros A a b k ->. rewrite firstn_app, firstn_all, Nat.sub_diag. cbn. apply app_nil_r. Qed.
Lemma check_y_cols : forall h cw off n cs rw ro, (2 <= n)%nat -> cw = given rw -> off = given ro -> (cw = true \/ off = true \/ (2 <= length cs)%nat) ->
  check_y h cw off (Y2 n (cs ++ opt rw ++ opt ro)) = Ok (resp_shape n (map (read h) cs), rw, ro).
Proof.
  intros h cw off n cs rw ro Hn Ec Ef Cl. rewrite Ec, Ef. destruct rw as [rw|], ro as [ro|]; cbn [given opt app check_y column_from_end all_but_last whole rbind rmap].
  - rewrite app_length. cbn [length]. assert (A1 : Nat.leb 2 (length cs + 2) = true) by (apply Nat.leb_le; lia). assert (A2 : Nat.leb 1 (length cs + 2) = true) by (apply Nat.leb_le; lia).
    rewrite A1, A2. cbn [rbind rmap]. rewrite firstn_exact by lia. rewrite squeeze_big by auto.
    replace (length cs + 2 - 2)%nat with (length cs) by lia. replace (length cs + 2 - 1)%nat with (S (length cs)) by lia.
    rewrite !app_nth2 by lia. rewrite Nat.sub_diag. replace (S (length cs) - length cs)%nat with 1%nat by lia. reflexivity.
  - rewrite app_length. cbn [length]. assert (A2 : Nat.leb 1 (length cs + 1) = true) by (apply Nat.leb_le; lia).
    rewrite A2. cbn [rbind rmap]. rewrite firstn_exact by lia. rewrite squeeze_big by auto.
    replace (length cs + 1 - 1)%nat with (length cs) by lia. rewrite !app_nth2 by lia. rewrite Nat.sub_diag. reflexivity.
  - rewrite app_length. cbn [length]. assert (A2 : Nat.leb 1 (length cs + 1) = true) by (apply Nat.leb_le; lia).
    rewrite A2. cbn [rbind rmap]. rewrite firstn_exact by lia. rewrite squeeze_big by auto.
    replace (length cs + 1 - 1)%nat with (length cs) by lia. rewrite !app_nth2 by lia. rewrite Nat.sub_diag. reflexivity.
  - rewrite app_nil_r. cbn in Ec, Ef. subst cw off. destruct Cl as [C|[C|C]]; try discriminate. unfold resp_shape.
    destruct cs as [|a [|b cs]]; cbn in C; try lia. reflexivity.
Qed.
Lemma check_y_ok : forall h cw off n rs w o y, described h cw off n rs w o y -> (2 <= n)%nat ->
  exists wr or, check_y h cw off y = Ok (resp_shape n rs, wr, or) /\ w = option_map (read h) wr /\ o = option_map (read h) or /\
    (forall r, wr = Some r -> (r < length h)%nat /\ length (read h r) = n) /\ (forall r, or = Some r -> (r < length h)%nat /\ length (read h r) = n) /\
    (forall r, wr = Some r -> or <> Some r) /\ Forall (fun v => length v = n) rs.
Proof.
  intros h cw off n rs w o y [(E1 & E2 & E3 & E4 & r & Ey & Lr & Ln & Er)|((cs & rw & ro & Ey & Er & Ew & Eo & Ec & Ef & Fa & Nd) & Ne & Cl)] Hn.
  - subst. exists None, None. cbn. repeat split; auto; try discriminate.
  - assert (Frs : Forall (fun v => length v = n) rs). { rewrite Er. apply Forall_app in Fa. destruct Fa as [Fa _]. clear -Fa. induction Fa as [|a l [A B] F IH]; cbn; constructor; auto. }
    exists rw, ro. split; [|split; [exact Ew|split; [exact Eo|]]].
    + rewrite Ey, Er. apply check_y_cols; auto. rewrite Er, map_length in Cl. auto.
    + split; [|split; [|split; auto]].
      * intros r ->. apply Forall_app in Fa. destruct Fa as [_ Fa]. cbn in Fa. apply (Forall_inv Fa).
      * intros r ->. apply Forall_app in Fa. destruct Fa as [_ Fa]. apply Forall_app in Fa. destruct Fa as [_ Fa]. cbn in Fa. apply (Forall_inv Fa).
      * intros r E1 E2. subst rw ro. cbn in Nd. apply NoDup_remove_2 in Nd. apply Nd. apply in_or_app. right. cbn. auto.
Qed.
Theorem columns_read : forall h cw off n rs w o y, described h cw off n rs w o y -> (2 <= n)%nat ->
  exists wr or, check_y h cw off y = Ok (match rs with [v] => RVec v | _ => RMat n rs end, wr, or) /\ option_map (read h) wr = w /\ option_map (read h) or = o.
Proof. intros h cw off n rs w o y D Hn. destruct (check_y_ok _ _ _ _ _ _ _ _ D Hn) as (wr & or & E & Ew & Eo & _). exists wr, or. split; [exact E|]. split; congruence. Qed.
(** a one-dimensional y where columns are announced *)
Theorem vector_refused : forall h cw off r, cw = true \/ off = true -> check_y h cw off (Y1 r) = Err IndexError.
Proof. intros h [|] [|] r [E|E]; try discriminate; auto. Qed.

(** ** From columns to data *)
Lemma binary_true : forall v, Forall (fun a => a = 0 \/ a = 1) v -> is_binary v = true.
Proof. intros v F. induction F as [|a v [E|E] F IH]; cbn; auto; subst; [destruct (Req_EM_T 0 0)|destruct (Req_EM_T 1 0); [lra|destruct (Req_EM_T 1 1)]]; cbn; auto; exfalso; auto. Qed.
Lemma binary_forall2 : forall v, Forall (fun a => a = 0 \/ a = 1) v -> Forall2 (fun a b => 0 <= a <= b) v (ones (length v)).
Proof. intros v F. induction F as [|a v H F IH]; cbn; constructor; auto. destruct H; subst; lra. Qed.
Lemma ones_len : forall n, length (ones n) = n. Proof. intros. apply repeat_length. Qed.
Lemma holds_read : forall h e n y k w o, holds h e n y k w o -> (2 <= n)%nat ->
  exists r wr or, check_y h (e_cw e) (e_off e) y = Ok (r, wr, or) /\ family_of (e_fam e) r = Ok k /\ no_trials_ok (e_fam e) r = true /\ cases k = n /\ fits k n /\ legal_data k /\
    w = option_map (read h) wr /\ o = option_map (read h) or /\ (forall r, wr = Some r -> (r < length h)%nat /\ legal_weights n (read h r)) /\
    (forall r, or = Some r -> (r < length h)%nat /\ length (read h r) = n) /\ (forall r, wr = Some r -> or <> Some r).
Proof.
  intros h e n y k w o (rs & D & Dd & Lr & Lw) Hn. destruct (check_y_ok _ _ _ _ _ _ _ _ D Hn) as (wr & or & E & Ew & Eo & Bw & Bo & Bd & Fr).
  exists (resp_shape n rs), wr, or. split; [exact E|].
  assert (K : family_of (e_fam e) (resp_shape n rs) = Ok k /\ no_trials_ok (e_fam e) (resp_shape n rs) = true /\ cases k = n /\ fits k n /\ legal_data k).
  { unfold doc_data, legal_response in *. destruct (e_fam e); destruct rs as [|a [|b [|c rs]]]; try discriminate; injection Dd as <-; cbn [resp_shape family_of no_trials_ok cases fits legal_data];
      assert (La := Forall_inv Fr); cbn in La; repeat (split; [auto; fail|]); auto.
    - rewrite La. split; auto. split; [apply binary_true; auto|]. split; auto. rewrite ones_len. split; auto. rewrite <- La. apply binary_forall2; auto.
    - assert (Lb := Forall_inv (Forall_inv_tail Fr)). cbn in Lb. auto.
    - rewrite La. split; auto. split; [apply binary_true; auto|]. split; auto. rewrite ones_len. split; auto. rewrite <- La. apply binary_forall2; auto.
    - assert (Lb := Forall_inv (Forall_inv_tail Fr)). cbn in Lb. auto. }
  destruct K as (K1 & K2 & K3 & K4 & K5). do 5 (split; [assumption|]). split; [exact Ew|]. split; [exact Eo|]. split; [|split; auto].
  intros r Er. destruct (Bw r Er). split; auto. split; auto. apply Lw. rewrite Ew, Er. reflexivity.
Qed.
Definition stored (o : option vec) : option vec := match o with Some v => if all_zero v then None else Some v | None => None end.
Lemma stored_minus : forall o x n, length x = n -> off_fits n o -> sub_offset (stored o) x = minus x o.
Proof.
  intros [v|] x n Lx Lo; cbn in *; auto. destruct (all_zero v) eqn:E; cbn; auto. apply all_zero_spec in E. rewrite E.
  replace (length v) with (length x) by congruence. symmetry. clear. induction x as [|a x IH]; [reflexivity|]. unfold vsub in *. cbn. f_equal; [lra|]. exact IH.
Qed.
Lemma loss_stored : forall k c o cw x n, length x = n -> off_fits n o -> loss_func k c (stored o) cw x = loss_func k c o cw x.
Proof. intros k c o cw x n Lx Lo. unfold loss_func. rewrite (stored_minus o x n Lx Lo). replace (sub_offset o x) with (minus x o) by (destruct o; auto). reflexivity. Qed.
Lemma grad_stored : forall k c o cw x n, length x = n -> off_fits n o -> loss_grad k c (stored o) cw x = loss_grad k c o cw x.
Proof. intros k c o cw x n Lx Lo. unfold loss_grad. rewrite (stored_minus o x n Lx Lo). replace (sub_offset o x) with (minus x o) by (destruct o; auto). reflexivity. Qed.
Lemma saturated_ok : forall h e r k n c o w, family_of e r = Ok k -> no_trials_ok e r = true -> cases k = n -> fits k n -> legal_data k -> 0 <= c ->
  (forall r, w = Some r -> legal_weights n (read h r)) -> exists l, new_saturated h e r c o w = Ok l /\ l_fam l = k /\ l_shape l = n /\ l_coef l = c /\ l_cw l = w /\ l_offset l = stored o.
Proof.
  intros h e r k n c o w Ef Et Ek Fk Lk Hc Hw. unfold new_saturated. rewrite Ef. cbn. rewrite Et.
  destruct (new_loss_accepts h k (cases k) c o w) as [A _]; [rewrite Ek; auto|]. destruct (proj2 A) as [l El]; [rewrite Ek; auto|].
  exists l. split; auto. destruct (new_loss_fields _ _ _ _ _ _ _ _ El) as (E1 & E2 & E3 & E4 & E5 & _). repeat split; auto. congruence.
Qed.
Lemma mat_vec_length : forall X b, length (mat_vec X b) = length X. Proof. intros. apply map_length. Qed.

(** ** The likelihood *)
Lemma any_neg_ok : forall v, Forall (fun a => 0 <= a) v -> any_neg v = false.
Proof. intros v F. induction F as [|a v H F IH]; cbn; auto. destruct (Rlt_dec a 0); [lra|auto]. Qed.
Lemma ones_nonneg : forall n, Forall (fun a => 0 <= a) (ones n).
Proof. intros n. apply Forall_forall. intros a H. apply repeat_spec in H. lra. Qed.
Theorem loglike_ok : forall h e n p X y k w o, holds h e n y k w o -> (2 <= n)%nat -> design n p X -> 0 <= e_coef e ->
  exists h1 g, loglike_factory h e X p y = (h1, Ok g) /\ (forall r, (r < length h)%nat -> read h1 r = read h r) /\ g_quad g = mk_iq 0 (FScal 0) (FScal 0) 0 /\ l_cw (g_loss g) = None /\
    (g_cw g < length h1)%nat /\ read h1 (g_cw g) = weights n w /\ (forall h2 b m, glm_eval h2 g b m = (h2, snd (glm_eval h2 g b m))) /\
    (forall h2 b, snd (glm_eval h2 g b EvFunc) = Ok (VFunc (loss_func k (e_coef e) o (read h2 (g_cw g)) (mat_vec X b)))) /\
    (forall h2 b, snd (glm_eval h2 g b EvGrad) = Ok (VGrad (mat_tvec p X (loss_grad k (e_coef e) o (read h2 (g_cw g)) (mat_vec X b))))) /\
    (forall r wr or, check_y h (e_cw e) (e_off e) y = Ok (r, Some wr, or) -> g_cw g = wr).
Proof.
  intros h e n p X y k w o H Hn (LX & FX) Hc. destruct (holds_read _ _ _ _ _ _ _ H Hn) as (r & wr & or & E & Ef & Et & Ek & Fk & Lk & Ew & Eo & Bw & Bo & Bd).
  destruct (saturated_ok h (e_fam e) r k n (e_coef e) (option_map (read h) or) None Ef Et Ek Fk Lk Hc) as (l & El & E1 & E2 & E3 & E4 & E5); [discriminate|].
  assert (Off : off_fits n o). { rewrite Eo. destruct or as [ro|]; cbn; auto. apply (Bo ro eq_refl). }
  unfold loglike_factory. rewrite E, El. unfold new_glm.
  assert (G : forall h2 rr gg, g_loss gg = l -> g_map gg = mat_vec X -> g_adj gg = mat_tvec p X -> g_offset gg = None -> g_cw gg = rr ->
    (forall b m, glm_eval h2 gg b m = (h2, snd (glm_eval h2 gg b m))) /\ (forall b, snd (glm_eval h2 gg b EvFunc) = Ok (VFunc (loss_func k (e_coef e) o (read h2 rr) (mat_vec X b)))) /\
    forall b, snd (glm_eval h2 gg b EvGrad) = Ok (VGrad (mat_tvec p X (loss_grad k (e_coef e) o (read h2 rr) (mat_vec X b))))).
  { intros h2 rr gg G1 G2 G2' G3 G4. split; [|split].
    - intros b m. unfold glm_eval, loss_eval. rewrite G1, weigh_none by auto. reflexivity.
    - intros b. unfold glm_eval, loss_eval. rewrite G1, weigh_none by auto. rewrite G2, G3, G4, E1, E3, E5. cbn. rewrite <- Eo.
      rewrite (loss_stored k (e_coef e) o _ (mat_vec X b) n); auto. rewrite mat_vec_length. auto.
    - intros b. unfold glm_eval, loss_eval. rewrite G1, weigh_none by auto. rewrite G2, G2', G3, G4, E1, E3, E5. cbn. rewrite <- Eo.
      rewrite (grad_stored k (e_coef e) o _ (mat_vec X b) n); auto. rewrite mat_vec_length. auto. }
  destruct wr as [wr|].
  - destruct (Bw wr eq_refl) as (Lt & L1 & L2). rewrite any_neg_ok by auto. rewrite E2, L1, Nat.eqb_refl. cbn [negb].
    eexists h, _. split; [reflexivity|]. cbn [g_quad g_loss g_cw]. split; auto. split; auto. split; auto. split; auto. split; [rewrite Ew; reflexivity|].
    split; [intros h2 b m; refine (proj1 (G h2 wr _ _ _ _ _ _) b m); reflexivity|]. split; [intros h2 b; refine (proj1 (proj2 (G h2 wr _ _ _ _ _ _)) b); reflexivity|].
    split; [intros h2 b; refine (proj2 (proj2 (G h2 wr _ _ _ _ _ _)) b); reflexivity|].
    intros r' wr' or' E'. injection E' as _ <- _. reflexivity.
  - cbn [t_out matrix]. assert (Rn : read (h ++ [ones (length X)]) (length h) = ones (length X)) by (unfold read; rewrite app_nth2, Nat.sub_diag by lia; reflexivity).
    rewrite Rn, any_neg_ok by apply ones_nonneg. rewrite ones_len, E2, LX, Nat.eqb_refl. cbn [negb].
    eexists (h ++ [ones n]), _. split; [reflexivity|]. cbn [g_quad g_loss g_cw]. split; [intros q Hq; unfold read; rewrite app_nth1 by auto; auto|]. split; auto. split; auto.
    split; [rewrite app_length; cbn; lia|]. split; [rewrite Ew; cbn; rewrite <- LX; exact Rn|].
    split; [intros h2 b m; refine (proj1 (G h2 (length h) _ _ _ _ _ _) b m); reflexivity|]. split; [intros h2 b; refine (proj1 (proj2 (G h2 (length h) _ _ _ _ _ _)) b); reflexivity|].
    split; [intros h2 b; refine (proj2 (proj2 (G h2 (length h) _ _ _ _ _ _)) b); reflexivity|].
    intros r' wr' or' E'. discriminate.
Qed.
