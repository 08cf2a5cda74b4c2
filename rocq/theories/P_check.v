(** Optimality conditions of proximal problems for polar gauges. *)
From Coq Require Import Reals List Lra Lia Psatz Bool.
From Verif Require Import Vec Spec SpecConvex SpecMode SpecAtom P_calc P_gauge P_admm P_problem.
Import ListNotations.
Local Open Scope R_scope.

Section Pair.
Variables (n : nat) (h h' : vec -> ext).
Hypothesis PP : polar_pair n h h'.
Hypothesis PP' : polar_pair n h' h.

Lemma gauge_convex : convex_ext n h.
Proof.
  intros x y t a b Lx Ly Ht Ex Ey. assert (Lz : length (between x y t) = n) by (unfold between; vl n).
  assert (D : forall v, length v = n -> dot (between x y t) v = (1 - t) * dot x v + t * dot y v).
  { intros v Lv. unfold between. rewrite dot_add_l, dot_scal_l, dot_sub_l by vl n. ring. }
  pose proof (po_attain _ _ _ PP' _ Lz) as At. destruct (h (between x y t)) as [s|] eqn:E.
  - destruct At as (v & r & Lv & Ev & Hr & Hd). rewrite D in Hd by auto. cbn. 
    pose proof (po_holder _ _ _ PP' v x r a Lv Lx Ev Ex). pose proof (po_holder _ _ _ PP' v y r b Lv Ly Ev Ey).
    pose proof (ga_nonneg _ _ (po_gauge _ _ _ PP) _ _ Lx Ex). pose proof (ga_nonneg _ _ (po_gauge _ _ _ PP) _ _ Ly Ey).
    assert (r * a <= a) by nra. assert (r * b <= b) by nra. nra.
  - destruct At as (v & Lv & Ev & Hd). rewrite D in Hd by auto.
    pose proof (po_holder _ _ _ PP' v x 0 a Lv Lx Ev Ex). pose proof (po_holder _ _ _ PP' v y 0 b Lv Ly Ev Ey). nra.
Qed.
Lemma gmode_convex : forall m, mode_ok m -> convex_ext n (gmode h m).
Proof.
  intros m Hm x y t a b Lx Ly Ht Ex Ey. destruct m as [lam|c]; cbn [gmode] in *.
  - destruct (h x) as [r|] eqn:Hx; [|discriminate]. destruct (h y) as [s|] eqn:Hy; [|discriminate]. cbn in Ex, Ey. injection Ex as <-. injection Ey as <-.
    pose proof (gauge_convex x y t r s Lx Ly Ht Hx Hy) as C. destruct (h (between x y t)); cbn in *; [|tauto]. nra.
  - destruct (h x) as [r|] eqn:Hx; [|discriminate]. destruct (h y) as [s|] eqn:Hy; [|discriminate]. 
    destruct (Rle_dec r c); [|discriminate]. destruct (Rle_dec s c); [|discriminate]. injection Ex as <-. injection Ey as <-.
    pose proof (gauge_convex x y t r s Lx Ly Ht Hx Hy) as C. destruct (h (between x y t)) as [q|]; cbn in *; [|tauto].
    destruct (Rle_dec q c) as [|N]; cbn; [lra|]. destruct N. nra.
Qed.

Section At.
Variables (z U : vec).
Hypothesis Lz : length z = n.

Lemma prox_step : forall m, mode_ok m -> is_argmin n (prox_objective 1 z (gmode h m)) U -> forall a y b, length y = n -> gmode h m U = Fin a -> gmode h m y = Fin b ->
  a + dot (vsub z U) (vsub y U) <= b.
Proof.
  intros m Hm (LU & (r & Er) & MU) a y b Ly EU Ey.
  assert (K : forall v, length v = n -> prox_objective 1 z (gmode h m) v = ext_add (gmode h m v) (Fin (1 / 2 * sqn (vsub v z) + dot (zeros n) v))).
  { intros v Lv. unfold prox_objective. destruct (gmode h m v); cbn; auto. f_equal. rewrite (dot_comm (zeros n)), dot_zeros_r, (sqn_vsub_sym z v) by vl n. ring. }
  assert (V := prox_variational n (gmode h m) 1 z (zeros n) U a y b (gmode_convex m Hm) ltac:(lra) Lz ltac:(vl n) Ly).
  rewrite !(dot_comm (zeros n)), !dot_zeros_r in V.
  rewrite dot_sub_r by vl n. rewrite !dot_sub_l by vl n. rewrite !dot_sub_l in V by vl n.
  assert (M : is_argmin n (fun z0 => ext_add (gmode h m z0) (Fin (1 / 2 * sqn (vsub z0 z) + dot (zeros n) z0))) U).
  { split; [auto|]. split; [exists r; rewrite <- K; auto|]. intros v Lv. rewrite <- !K by auto. auto. }
  specialize (V M EU Ey). lra.
Qed.

Lemma kkt_lagrange : forall lam, 0 <= lam -> is_argmin n (prox_objective 1 z (gmode h (Lagrange lam))) U ->
  exists hu du, h U = Fin hu /\ h' (vsub z U) = Fin du /\ du <= lam /\ dot (vsub z U) U = lam * hu.
Proof.
  intros lam Hl M. assert (LU : length U = n) by apply M. assert (V := prox_step (Lagrange lam) ltac:(simpl; lra) M).
  assert (E : exists hu, h U = Fin hu). { destruct M as (_ & (r & Er) & _). unfold prox_objective in Er. cbn [gmode] in Er. destruct (h U); [eauto|discriminate]. }
  destruct E as (hu & EU). exists hu. assert (Lr : length (vsub z U) = n) by vl n.
  assert (F : forall y r, length y = n -> h y = Fin r -> lam * hu + dot (vsub z U) (vsub y U) <= lam * r).
  { intros y r Ly Ey. apply (V (lam * hu) y (lam * r) Ly); cbn [gmode]; [rewrite EU|rewrite Ey]; auto. }
  assert (G := po_gauge _ _ _ PP).
  assert (A := F (zeros n) 0 ltac:(vl n) (ga_zero _ _ G)). assert (B := F (vscal 2 U) (2 * hu) ltac:(vl n) (ga_scal _ _ G 2 U hu LU ltac:(lra) EU)).
  rewrite dot_sub_r, dot_zeros_r in A by vl n. rewrite dot_sub_r, dot_scal_r in B by vl n.
  assert (Q : dot (vsub z U) U = lam * hu) by lra.
  assert (F' : forall y r, length y = n -> h y = Fin r -> dot (vsub z U) y <= lam * r).
  { intros y r Ly Ey. specialize (F y r Ly Ey). rewrite dot_sub_r in F by vl n. lra. }
  pose proof (po_attain _ _ _ PP _ Lr) as At. destruct (h' (vsub z U)) as [s|].
  - destruct At as (y & r & Ly & Ey & Hr & Hd). exists s. repeat split; auto. specialize (F' y r Ly Ey). rewrite Hd in F'. nra.
  - destruct At as (y & Ly & Ey & Hd). specialize (F' y 0 Ly Ey). lra.
Qed.
Lemma kkt_bound : forall b, 0 <= b -> is_argmin n (prox_objective 1 z (gmode h (Bound b))) U ->
  exists hu du, h U = Fin hu /\ h' (vsub z U) = Fin du /\ hu <= b /\ dot (vsub z U) U = b * du.
Proof.
  intros b Hb M. assert (LU : length U = n) by apply M. assert (V := prox_step (Bound b) Hb M).
  assert (E : exists hu, h U = Fin hu /\ hu <= b). { destruct M as (_ & (r & Er) & _). unfold prox_objective in Er. cbn [gmode] in Er. destruct (h U) as [q|]; [|discriminate]. destruct (Rle_dec q b); [eauto|discriminate]. }
  destruct E as (hu & EU & Hu). exists hu. assert (Lr : length (vsub z U) = n) by vl n.
  assert (F : forall y r, length y = n -> h y = Fin r -> r <= b -> dot (vsub z U) y <= dot (vsub z U) U).
  { intros y r Ly Ey Hr. assert (0 + dot (vsub z U) (vsub y U) <= 0).
    { apply (V 0 y 0 Ly); cbn [gmode]; [rewrite EU; destruct (Rle_dec hu b); [auto|tauto]|rewrite Ey; destruct (Rle_dec r b); [auto|tauto]]. }
    rewrite dot_sub_r in H by vl n. lra. }
  assert (G := po_gauge _ _ _ PP). assert (G' := po_gauge' _ _ _ PP).
  pose proof (po_attain _ _ _ PP _ Lr) as At. destruct (h' (vsub z U)) as [s|] eqn:Es.
  - destruct At as (y & r & Ly & Ey & Hr & Hd). exists s. repeat split; auto.
    assert (F1 := F (vscal b y) (b * r) ltac:(vl n) (ga_scal _ _ G b y r Ly Hb Ey) ltac:(nra)). rewrite dot_scal_r, Hd in F1.
    pose proof (po_holder _ _ _ PP U (vsub z U) hu s LU Lr EU Es). pose proof (ga_nonneg _ _ G' _ _ Lr Es). nra.
  - exfalso. destruct At as (y & Ly & Ey & Hd). set (D := dot (vsub z U) y) in *. set (t := (Rabs (dot (vsub z U) U) + 1) / D).
    assert (Ht : 0 <= t). { apply Rmult_le_pos; [pose proof (Rabs_pos (dot (vsub z U) U)); lra|]. left. apply Rinv_0_lt_compat. auto. }
    assert (F1 := F (vscal t y) (t * 0) ltac:(vl n) (ga_scal _ _ G t y 0 Ly Ht Ey) ltac:(lra)). rewrite dot_scal_r in F1. fold D in F1.
    assert (t * D = Rabs (dot (vsub z U) U) + 1) by (unfold t; field; lra). pose proof (Rle_abs (dot (vsub z U) U)). lra.
Qed.

(** How far a candidate that passes is from the minimizer. *)
Lemma near_lagrange : forall lam d V hu du, 0 < lam -> 0 <= d -> length U = n -> h U = Fin hu -> h' (vsub z U) = Fin du -> du <= (1 + d) * lam ->
  (exists hv dv, h V = Fin hv /\ h' (vsub z V) = Fin dv /\ dv <= lam /\ dot (vsub z V) V = lam * hv) -> length V = n ->
  sqn (vsub U V) <= d * dot (vsub z V) V + (lam * hu - dot (vsub z U) U).
Proof.
  intros lam d V hu du Hl Hd LU EU Er Hdu (hv & dv & EV & Es & Hdv & Q) LV. assert (Lr : length (vsub z U) = n) by vl n. assert (Ls : length (vsub z V) = n) by vl n.
  assert (G := po_gauge _ _ _ PP). pose proof (ga_nonneg _ _ G _ _ LV EV). pose proof (ga_nonneg _ _ G _ _ LU EU).
  pose proof (po_holder _ _ _ PP U (vsub z V) hu dv LU Ls EU Es) as H1. pose proof (po_holder _ _ _ PP V (vsub z U) hv du LV Lr EV Er) as H2.
  assert (S : sqn (vsub U V) = dot (vsub z V) U - dot (vsub z V) V - dot (vsub z U) U + dot (vsub z U) V).
  { unfold sqn. rewrite dot_sub_l, !dot_sub_r by vl n. rewrite !dot_sub_l by vl n. rewrite (dot_comm V U). ring. }
  assert (hu * dv <= hu * lam) by nra. assert (hv * du <= hv * ((1 + d) * lam)) by nra. rewrite S. nra.
Qed.
Lemma near_bound : forall b d V hu du, 0 <= b -> 0 <= d -> length U = n -> h U = Fin hu -> h' (vsub z U) = Fin du -> hu <= (1 + d) * b ->
  (exists hv dv, h V = Fin hv /\ h' (vsub z V) = Fin dv /\ hv <= b /\ dot (vsub z V) V = b * dv) -> length V = n ->
  sqn (vsub U V) <= d * dot (vsub z V) V + (b * du - dot (vsub z U) U).
Proof.
  intros b d V hu du Hb Hd LU EU Er Hhu (hv & dv & EV & Es & Hhv & Q) LV. assert (Lr : length (vsub z U) = n) by vl n. assert (Ls : length (vsub z V) = n) by vl n.
  assert (G' := po_gauge' _ _ _ PP). pose proof (ga_nonneg _ _ G' _ _ Ls Es). pose proof (ga_nonneg _ _ G' _ _ Lr Er).
  pose proof (po_holder _ _ _ PP U (vsub z V) hu dv LU Ls EU Es) as H1. pose proof (po_holder _ _ _ PP V (vsub z U) hv du LV Lr EV Er) as H2.
  assert (S : sqn (vsub U V) = dot (vsub z V) U - dot (vsub z V) V - dot (vsub z U) U + dot (vsub z U) V).
  { unfold sqn. rewrite dot_sub_l, !dot_sub_r by vl n. rewrite !dot_sub_l by vl n. rewrite (dot_comm V U). ring. }
  assert (hu * dv <= (1 + d) * b * dv) by nra. assert (hv * du <= b * du) by nra. rewrite S. nra.
Qed.
End At.
End Pair.
