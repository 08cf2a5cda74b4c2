(** Scores: deviances, sample weights, repeated scoring. *)
From Coq Require Import Reals List Arith Lra Lia Bool.
From Verif Require Import M_affine M_loss M_buffer Vec Spec M_quad M_semi M_shift M_mode M_cox SpecLoss M_sklearn SpecSklearn P_quad P_buffer P_loss P_loss2 P_loss4 P_loss5 P_sklearn1.
Import ListNotations.
Local Open Scope R_scope.

Lemma saturated_value : forall h e r k n w u, family_of e r = Ok k -> no_trials_ok e r = true -> cases k = n -> fits k n -> legal_data k ->
  (forall r, w = Some r -> (r < length h)%nat /\ legal_weights n (read h r)) -> length u = n ->
  saturated_loss h e r w u = Ok (loss_func k 1 None (weights n (option_map (read h) w)) u).
Proof.
  intros h e r k n w u Ef Et Ek Fk Lk Hw Lu. destruct (saturated_ok h e r k n 1 None w Ef Et Ek Fk Lk) as (l & El & E1 & E2 & E3 & E4 & E5); [lra|intros; apply Hw; auto|].
  unfold saturated_loss. rewrite El. cbn [rbind]. assert (M : made h l).
  { exists None, None. unfold new_saturated in El. rewrite Ef in El. cbn in El. rewrite Et in El. split; [rewrite E1, E2, E3, E4; rewrite <- Ek at 1; exact El|]. split; [intros q Hq; rewrite E4 in Hq; exact (proj1 (Hw q Hq))|].
    rewrite E1, E2. split; [exact Fk|exact I]. }
  rewrite (proj1 (eval_own h l u EvFunc M (eq_trans Lu (eq_sym E2)))). cbn [smooth_value rbind]. rewrite E1, E3, E5. cbn [stored]. do 2 f_equal. unfold own_weights. rewrite E4, E2. destruct w; reflexivity.
Qed.
Lemma predictions_length : forall X b o n, length X = n -> off_fits n o -> length (minus (mat_vec X b) o) = n.
Proof. intros. apply minus_length; auto. rewrite mat_vec_length. auto. Qed.
Lemma mul_legal : forall n w s, legal_weights n w -> length s = n -> Forall (fun a => 0 <= a) s -> legal_weights n (vmul w s).
Proof.
  intros n w s (L & F) Ls Fs. split; [unfold vmul; apply zl; auto|]. revert w L F. revert n Ls. induction Fs as [|a s Ha Fs IH]; intros n Ls [|b w] L F; cbn; constructor.
  - apply Forall_inv in F. nra.
  - apply (IH (length s) eq_refl w); [cbn in *; lia|]. apply (Forall_inv_tail F).
Qed.
(** the state and the value of a score *)
Lemma score_unfold : forall h e n p X y k w o b sw, holds h e n y k w o -> (2 <= n)%nat -> design n p X -> e_coefs e = Some b -> e_classifier e = false -> legal_sample n sw ->
  exists h1 r wr, score h e X y sw = (h1, regressor_score h1 (e_fam e) (e_method e) r wr (minus (mat_vec X b) o)) /\ (exists or, check_y h (e_cw e) (e_off e) y = Ok (r, wr, or)) /\
    h1 = match sw, wr with Some s, Some q => write h q (vmul (read h q) s) | _, _ => h end /\
    option_map (read h1) wr = reweighted w sw /\
    family_of (e_fam e) r = Ok k /\ fits k n /\ off_fits n o /\
    forall u, length u = n -> saturated_loss h1 (e_fam e) r wr u = Ok (loss_func k 1 None (weights n (reweighted w sw)) u).
Proof.
  intros h e n p X y k w o b sw H Hn (LX & FX) Eb Ecl Ls. destruct (holds_read _ _ _ _ _ _ _ H Hn) as (r & wr & or & E & Ef & Et & Ek & Fk & Lk & Ew & Eo & Bw & Bo & Bd).
  set (h1 := match sw, wr with Some s, Some q => write h q (vmul (read h q) s) | _, _ => h end). exists h1, r, wr.
  assert (Off : off_fits n o). { rewrite Eo. destruct or as [ro|]; cbn; auto. apply (Bo ro eq_refl). }
  assert (Rd : option_map (read h1) wr = reweighted w sw).
  { rewrite Ew. unfold h1. destruct sw as [s|], wr as [q|]; cbn; auto. rewrite read_write_same; auto. apply (Bw q eq_refl). }
  split; [|split; [|split; [|split; [|split; [|split; [|split]]]]]]; auto.
  - unfold score. rewrite E. unfold linpred, fitted_coefs. rewrite Eb, Ecl. cbn [rmap]. fold h1. f_equal. rewrite Eo. destruct or; reflexivity.
  - eauto.
  - intros u Lu. rewrite (saturated_value h1 (e_fam e) r k n wr u Ef Et Ek Fk Lk); [rewrite Rd; reflexivity| |exact Lu].
    intros q Hq. destruct (Bw q Hq) as (Lt & Lw). unfold h1. rewrite Hq. destruct sw as [s|]; [|auto]. rewrite write_length, read_write_same by auto. split; auto. destruct (Ls s eq_refl). apply mul_legal; auto.
Qed.
Lemma reweighted_facts : forall h e n y k w o sw, holds h e n y k w o -> (2 <= n)%nat -> legal_sample n sw -> length (weights n (reweighted w sw)) = n.
Proof.
  intros h e n y k w o sw H Hn Ls. destruct (holds_read _ _ _ _ _ _ _ H Hn) as (r & wr & or & _ & _ & _ & _ & _ & _ & Ew & _ & Bw & _). rewrite Ew. destruct wr as [q|]; cbn.
  - destruct (Bw q eq_refl) as (_ & L & _). destruct sw as [s|]; cbn; auto. unfold vmul. apply zl; auto. apply (Ls s eq_refl).
  - destruct sw; apply ones_len.
Qed.
Theorem score_deviance : forall h e n p X y k w o b sw, holds h e n y k w o -> (2 <= n)%nat -> design n p X -> e_coefs e = Some b -> e_classifier e = false -> legal_sample n sw ->
  e_method e = Deviance -> Forall (exact_case k) (minus (mat_vec X b) o) ->
  snd (score h e X y sw) = Ok (- deviance_scale (e_fam e) * doc_loss k n 1 (weights n (reweighted w sw)) (minus (mat_vec X b) o)).
Proof.
  intros h e n p X y k w o b sw H Hn D Eb Ecl Ls Em Ex. destruct (score_unfold h e n p X y k w o b sw H Hn D Eb Ecl Ls) as (h1 & r & wr & E & _ & _ & _ & Ef & Fk & Off & V).
  assert (Lu := predictions_length X b o n (proj1 D) Off). rewrite E, Em. cbn [snd regressor_score]. rewrite V by auto. cbn [rmap]. f_equal. f_equal.
  assert (P : predictor k None (minus (mat_vec X b) o) = minus (mat_vec X b) o) by (destruct k; reflexivity).
  rewrite (loss_value k n); auto; rewrite ?P; auto; [exact I|]. eapply reweighted_facts; eauto.
Qed.
Theorem score_mean : forall h e n p X y k w o b sw, holds h e n y k w o -> (2 <= n)%nat -> design n p X -> e_coefs e = Some b -> e_classifier e = false -> legal_sample n sw ->
  e_method e = MeanDeviance -> e_fam e <> ECloglog -> Forall (exact_case k) (minus (mat_vec X b) o) ->
  snd (score h e X y sw) = Ok (- deviance_scale (e_fam e) * doc_loss k n 1 (weights n (reweighted w sw)) (minus (mat_vec X b) o) / INR n).
Proof.
  intros h e n p X y k w o b sw H Hn D Eb Ecl Ls Em Nc Ex. destruct (score_unfold h e n p X y k w o b sw H Hn D Eb Ecl Ls) as (h1 & r & wr & E & _ & _ & _ & Ef & Fk & Off & V).
  assert (Lu := predictions_length X b o n (proj1 D) Off). rewrite E, Em. cbn [snd regressor_score]. rewrite V by auto. cbn [rmap]. f_equal.
  assert (P : predictor k None (minus (mat_vec X b) o) = minus (mat_vec X b) o) by (destruct k; reflexivity).
  rewrite (loss_value k n); auto; rewrite ?P; auto; [|exact I|eapply reweighted_facts; eauto]. rewrite Lu. destruct (e_fam e); try contradiction; reflexivity.
Qed.
Theorem score_mean_cloglog : forall h e n p X y k w o b sw, holds h e n y k w o -> (2 <= n)%nat -> design n p X -> e_coefs e = Some b -> e_classifier e = false -> legal_sample n sw ->
  e_method e = MeanDeviance -> e_fam e = ECloglog -> Forall (exact_case k) (minus (mat_vec X b) o) ->
  snd (score h e X y sw) = Ok (- 2 * doc_loss k n 1 (weights n (reweighted w sw)) (minus (mat_vec X b) o)).
Proof.
  intros h e n p X y k w o b sw H Hn D Eb Ecl Ls Em Nc Ex. destruct (score_unfold h e n p X y k w o b sw H Hn D Eb Ecl Ls) as (h1 & r & wr & E & _ & _ & _ & Ef & Fk & Off & V).
  assert (Lu := predictions_length X b o n (proj1 D) Off). rewrite E, Em. cbn [snd regressor_score]. rewrite V by auto. cbn [rmap]. f_equal.
  assert (P : predictor k None (minus (mat_vec X b) o) = minus (mat_vec X b) o) by (destruct k; reflexivity).
  rewrite (loss_value k n); auto; rewrite ?P; auto; [|exact I|eapply reweighted_facts; eauto]. rewrite Nc. reflexivity.
Qed.
(** ** What scoring does to y *)
Lemma map_read_write : forall h q v rs, ~ In q rs -> map (read (write h q v)) rs = map (read h) rs.
Proof. intros h q v rs N. apply map_ext_in. intros a Ha. apply read_write_other. intros ->. auto. Qed.
Theorem score_effect : forall h e n p X y k w o b sw, holds h e n y k w o -> (2 <= n)%nat -> design n p X -> e_coefs e = Some b -> legal_sample n sw ->
  holds (fst (score h e X y sw)) e n y k (reweighted w sw) o.
Proof.
  intros h e n p X y k w o b sw H Hn (LX & FX) Eb Ls. destruct (holds_read _ _ _ _ _ _ _ H Hn) as (r & wr & or & E & _ & _ & _ & _ & _ & Ew & Eo & Bw & Bo & Bd).
  assert (F : fst (score h e X y sw) = match sw, wr with Some s, Some q => write h q (vmul (read h q) s) | _, _ => h end).
  { unfold score. rewrite E. unfold linpred, fitted_coefs. rewrite Eb. reflexivity. }
  rewrite F. destruct sw as [s|]; [|unfold reweighted; destruct w; exact H]. destruct wr as [q|]; [|rewrite Ew in *; exact H].
  destruct (Bw q eq_refl) as (Lt & Lw). destruct (Ls s eq_refl) as (L1 & L2). assert (Lm := mul_legal n _ _ Lw L1 L2).
  destruct H as (rs & D & Dd & Lr & Nw). exists rs. split; [|split; [exact Dd|split; [exact Lr|]]].
  2:{ intros v Ev. rewrite Ew in Ev. cbn in Ev. injection Ev as <-. apply Lm. }
  destruct D as [(E1 & E2 & E3 & E4 & _)|((cs & rw & ro & Ey & Er & Ew' & Eo' & Ec & Ef & Fa & Nd) & Ne & Cl)].
  - rewrite E3 in Ew. cbn in Ew. discriminate.
  - right. split; [|split; auto]. rewrite Ey, Er in *. rewrite map_length in Cl. rewrite (check_y_cols h (e_cw e) (e_off e) n cs rw ro Hn Ec Ef Cl) in E. injection E as _ -> ->. cbn [opt app] in *.
    assert (Nq : ~ In q (cs ++ opt or)) by (apply NoDup_remove_2 in Nd; exact Nd).
    exists cs, (Some q), or. split; [reflexivity|]. split; [symmetry; apply map_read_write; intros I; apply Nq; apply in_or_app; auto|].
    split; [rewrite Ew; cbn; rewrite read_write_same by auto; reflexivity|].
    split; [rewrite Eo'; destruct or as [ro|]; cbn; auto; f_equal; symmetry; apply read_write_other; intros ->; apply Nq; apply in_or_app; right; cbn; auto|].
    split; auto. split; auto. split; auto. rewrite write_length. cbn [opt app]. rewrite Forall_forall in Fa |- *. intros a Ha. destruct (Fa a Ha) as (A & B). split; auto.
    destruct (Nat.eq_dec a q) as [->|Nq']; [rewrite read_write_same by auto; apply Lm|rewrite read_write_other by auto; auto].
Qed.
Lemma times_power_0 : forall w s, length w = length s -> times_power w s 0 = w.
Proof. unfold times_power. induction w as [|a w IH]; intros [|c s] L; cbn in *; try discriminate; auto. f_equal; [lra|]. apply IH. lia. Qed.
Lemma times_power_S : forall w s k, vmul (times_power w s k) s = times_power w s (S k).
Proof. unfold times_power, vmul. induction w as [|a w IH]; intros [|c s] k; cbn; auto. f_equal; [ring|]. apply IH. Qed.
Theorem score_history : forall m h e n p X y k w o b s, holds h e n y k (Some w) o -> (2 <= n)%nat -> design n p X -> e_coefs e = Some b -> length s = n -> Forall (fun a => 0 <= a) s ->
  holds (score_times m h e X y s) e n y k (Some (times_power w s m)) o.
Proof.
  induction m as [|m IH]; intros h e n p X y k w o b s H Hn D Eb Ls Fs; cbn [score_times].
  - rewrite times_power_0; auto. destruct (holds_read _ _ _ _ _ _ _ H Hn) as (r & wr & or & _ & _ & _ & _ & _ & _ & Ew & _ & Bw & _). destruct wr as [q|]; [|discriminate]. cbn in Ew. injection Ew as ->.
    destruct (Bw q eq_refl) as (_ & L & _). congruence.
  - assert (H' := IH h e n p X y k w o b s H Hn D Eb Ls Fs). assert (H2 := score_effect _ e n p X y k _ o b (Some s) H' Hn D Eb). cbn [reweighted] in H2. rewrite times_power_S in H2. apply H2.
    intros v E. injection E as <-. auto.
Qed.
Theorem score_again : forall m h e n p X y k w o b s, holds h e n y k (Some w) o -> (2 <= n)%nat -> design n p X -> e_coefs e = Some b -> e_classifier e = false -> length s = n -> Forall (fun a => 0 <= a) s ->
  e_method e = Deviance -> Forall (exact_case k) (minus (mat_vec X b) o) ->
  snd (score (score_times m h e X y s) e X y (Some s)) = Ok (- deviance_scale (e_fam e) * doc_loss k n 1 (times_power w s (S m)) (minus (mat_vec X b) o)).
Proof.
  intros m h e n p X y k w o b s H Hn D Eb Ecl Ls Fs Em Ex. assert (H' := score_history m h e n p X y k w o b s H Hn D Eb Ls Fs).
  rewrite (score_deviance _ e n p X y k _ o b (Some s) H' Hn D Eb Ecl); auto; [cbn [reweighted weights]; rewrite times_power_S; reflexivity|]. intros v E. injection E as <-. auto.
Qed.
Theorem sample_ignored : forall h e X y s, e_cw e = false -> score h e X y (Some s) = score h e X y None.
Proof.
  intros h e X y s E. unfold score. rewrite E. destruct (e_off e); cbn [check_y].
  - destruct (column_from_end y 1); cbn; auto. destruct (all_but_last h y 1); reflexivity.
  - reflexivity.
Qed.
Theorem score_spoils_fit : forall h e n p X y k w o s h1 g b x, holds h e n y k (Some w) o -> (2 <= n)%nat -> design n p X -> 0 <= e_coef e -> length s = n -> Forall (fun a => 0 <= a) s ->
  loglike_factory h e X p y = (h1, Ok g) -> length x = p -> Forall (exact_case k) (predictor k o (mat_vec X x)) ->
  snd (glm_eval h1 g x EvFunc) = Ok (VFunc (doc_loss k n (e_coef e) w (predictor k o (mat_vec X x)))) /\
  snd (glm_eval (fst (score h1 (fitted e g (Some b)) X y (Some s))) g x EvFunc) = Ok (VFunc (doc_loss k n (e_coef e) (vmul w s) (predictor k o (mat_vec X x)))).
Proof.
  intros h e n p X y k w o s h1 g b x H Hn D Hc Ls Fs E Lx Ex. destruct (loglike_ok _ _ _ _ _ _ _ _ _ H Hn D Hc) as (h1' & g' & E' & Rd & _ & _ & Lt & Rw & Ev & V & _ & Ecw). rewrite E in E'. injection E' as <- <-.
  destruct (holds_read _ _ _ _ _ _ _ H Hn) as (r & wr & or & Ey & Ef & Et & Ek & Fk & Lk & Ew & Eo & Bw & Bo & Bd).
  destruct wr as [q|]; [|discriminate]. cbn in Ew. injection Ew as Ew. assert (Q := Ecw r q or Ey). destruct (Bw q eq_refl) as (Lq & Lw1 & Lw2).
  assert (Off : off_fits n o). { rewrite Eo. destruct or as [ro|]; cbn; auto. apply (Bo ro eq_refl). }
  assert (Lm : length (mat_vec X x) = n) by (rewrite mat_vec_length; apply D).
  split.
  - rewrite V, Rw. do 2 f_equal. apply loss_value; auto. cbn. congruence.
  - rewrite V. do 2 f_equal. assert (Eh : h1 = h). { unfold loglike_factory in E. rewrite Ey in E. destruct (new_saturated h (e_fam e) r (e_coef e) (option_map (read h) or) None) as [l|]; [|discriminate]. unfold new_glm in E. injection E as <- _. reflexivity. }
    assert (F : fst (score h1 (fitted e g (Some b)) X y (Some s)) = write h q (vmul (read h q) s)). { unfold score. cbn [e_cw e_off fitted]. rewrite Eh, Ey. unfold linpred, fitted_coefs. cbn. reflexivity. }
    rewrite F, Q, read_write_same by auto. rewrite <- Ew. apply loss_value; auto. unfold vmul. apply zl; congruence.
Qed.
