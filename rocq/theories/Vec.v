(** Vectors as lists of reals: shared mathematics (not a model of any code). *)
From Coq Require Import Reals List Lra Lia Psatz Permutation.
Import ListNotations.
Local Open Scope R_scope.

Definition vec := list R.

Fixpoint vzip (f : R -> R -> R) (x y : vec) : vec :=
  match x, y with
  | a :: x', b :: y' => f a b :: vzip f x' y'
  | _, _ => []
  end.

Definition vadd : vec -> vec -> vec := vzip Rplus.
Definition vsub : vec -> vec -> vec := vzip Rminus.
Definition vmul : vec -> vec -> vec := vzip Rmult.
Definition vscal (a : R) : vec -> vec := map (Rmult a).
Definition vopp : vec -> vec := map Ropp.
Definition vsum (x : vec) : R := fold_right Rplus 0 x.
Definition dot (x y : vec) : R := vsum (vmul x y).
Definition sqn (x : vec) : R := dot x x.
Definition norm (x : vec) : R := sqrt (sqn x).
Definition zeros (n : nat) : vec := repeat 0 n.
Definition const_vec (n : nat) (c : R) : vec := repeat c n.
Definition vabs : vec -> vec := map Rabs.

(** ** Induction on several vectors of equal length *)

Lemma vec_ind2 : forall (A B : Type) (P : list A -> list B -> Prop),
  P [] [] ->
  (forall a b x y, length x = length y -> P x y -> P (a :: x) (b :: y)) ->
  forall x y, length x = length y -> P x y.
Proof.
  intros A B P H0 HS x. induction x as [|a x IH]; intros [|b y] Hl; simpl in *; try discriminate; auto.
Qed.

Lemma vec_ind3 : forall (A B C : Type) (P : list A -> list B -> list C -> Prop),
  P [] [] [] ->
  (forall a b c x y z, length x = length y -> length x = length z ->
     P x y z -> P (a :: x) (b :: y) (c :: z)) ->
  forall x y z, length x = length y -> length x = length z -> P x y z.
Proof.
  intros A B C P H0 HS x. induction x as [|a x IH]; intros [|b y] [|c z] H1 H2; simpl in *; try discriminate; auto.
Qed.

Lemma vec_ind4 : forall (A B C D : Type) (P : list A -> list B -> list C -> list D -> Prop),
  P [] [] [] [] ->
  (forall a b c d x y z w, length x = length y -> length x = length z -> length x = length w ->
     P x y z w -> P (a :: x) (b :: y) (c :: z) (d :: w)) ->
  forall x y z w, length x = length y -> length x = length z -> length x = length w -> P x y z w.
Proof.
  intros A B C D P H0 HS x.
  induction x as [|a x IH]; intros [|b y] [|c z] [|d w] H1 H2 H3; simpl in *; try discriminate; auto.
Qed.

(** ** Lengths *)

Lemma vzip_length : forall f x y, length x = length y -> length (vzip f x y) = length x.
Proof. intros f x y H. pattern x, y. apply vec_ind2; simpl; auto. Qed.
Lemma vzip_length_min : forall f x y, length (vzip f x y) = Nat.min (length x) (length y).
Proof. intros f. induction x as [|a x IH]; intros [|b y]; simpl; auto. Qed.
Lemma vadd_length : forall x y, length x = length y -> length (vadd x y) = length x.
Proof. intros; apply vzip_length; auto. Qed.
Lemma vsub_length : forall x y, length x = length y -> length (vsub x y) = length x.
Proof. intros; apply vzip_length; auto. Qed.
Lemma vmul_length : forall x y, length x = length y -> length (vmul x y) = length x.
Proof. intros; apply vzip_length; auto. Qed.
Lemma vscal_length : forall a x, length (vscal a x) = length x.
Proof. intros; apply map_length. Qed.
Lemma vopp_length : forall x, length (vopp x) = length x.
Proof. intros; apply map_length. Qed.
Lemma vabs_length : forall x, length (vabs x) = length x.
Proof. intros; apply map_length. Qed.
Lemma zeros_length : forall n, length (zeros n) = n.
Proof. intros; apply repeat_length. Qed.
Lemma const_vec_length : forall n c, length (const_vec n c) = n.
Proof. intros; apply repeat_length. Qed.

Ltac vlen :=
  repeat (progress (repeat rewrite ?vscal_length, ?vopp_length, ?vabs_length, ?zeros_length,
                      ?const_vec_length, ?map_length;
                    repeat first [ rewrite vadd_length | rewrite vsub_length
                                 | rewrite vmul_length | rewrite vzip_length ]));
  try assumption; try congruence; try lia.

(** ** Algebra *)

Lemma dot_comm : forall x y, dot x y = dot y x.
Proof.
  unfold dot, vmul. induction x as [|a x IH]; intros [|b y]; simpl; auto.
  specialize (IH y). simpl in IH. rewrite IH. ring.
Qed.

Lemma dot_cons : forall a x b y, dot (a :: x) (b :: y) = a * b + dot x y.
Proof. reflexivity. Qed.
Lemma dot_nil_l : forall y, dot [] y = 0.
Proof. reflexivity. Qed.
Lemma dot_nil_r : forall x, dot x [] = 0.
Proof. destruct x; reflexivity. Qed.
Lemma sqn_cons : forall a x, sqn (a :: x) = a * a + sqn x.
Proof. reflexivity. Qed.
Lemma vsum_cons : forall a x, vsum (a :: x) = a + vsum x.
Proof. reflexivity. Qed.

Lemma vsum_app : forall x y, vsum (x ++ y) = vsum x + vsum y.
Proof. induction x as [|a x IH]; intros y; simpl; [lra|]. fold (vsum (x ++ y)). rewrite IH. unfold vsum. lra. Qed.

Lemma vsum_perm : forall x y, Permutation x y -> vsum x = vsum y.
Proof. induction 1; simpl; unfold vsum in *; simpl; lra. Qed.

Lemma dot_add_l : forall x y z, length x = length y -> length x = length z ->
  dot (vadd x y) z = dot x z + dot y z.
Proof.
  intros x y z H1 H2. pattern x, y, z. apply vec_ind3; auto; unfold vadd; simpl.
  - unfold dot; simpl; lra.
  - intros a b c x' y' z' _ _ IH. rewrite !dot_cons, IH. ring.
Qed.
Lemma dot_sub_l : forall x y z, length x = length y -> length x = length z ->
  dot (vsub x y) z = dot x z - dot y z.
Proof.
  intros x y z H1 H2. pattern x, y, z. apply vec_ind3; auto; unfold vsub; simpl.
  - unfold dot; simpl; lra.
  - intros a b c x' y' z' _ _ IH. rewrite !dot_cons, IH. ring.
Qed.
Lemma dot_add_r : forall x y z, length x = length y -> length x = length z ->
  dot z (vadd x y) = dot z x + dot z y.
Proof. intros. rewrite dot_comm, dot_add_l, (dot_comm x), (dot_comm y); auto. Qed.
Lemma dot_sub_r : forall x y z, length x = length y -> length x = length z ->
  dot z (vsub x y) = dot z x - dot z y.
Proof. intros. rewrite dot_comm, dot_sub_l, (dot_comm x), (dot_comm y); auto. Qed.
Lemma dot_scal_l : forall a x y, dot (vscal a x) y = a * dot x y.
Proof.
  intros a. induction x as [|b x IH]; intros [|c y]; unfold vscal; simpl;
    rewrite ?dot_nil_r, ?dot_nil_l, ?dot_cons; try lra.
  unfold vscal in IH. rewrite IH. ring.
Qed.
Lemma dot_scal_r : forall a x y, dot x (vscal a y) = a * dot x y.
Proof. intros. rewrite dot_comm, dot_scal_l, dot_comm. auto. Qed.
Lemma dot_opp_l : forall x y, dot (vopp x) y = - dot x y.
Proof.
  induction x as [|b x IH]; intros [|c y]; unfold vopp; simpl;
    rewrite ?dot_nil_r, ?dot_nil_l, ?dot_cons; try lra.
  unfold vopp in IH. rewrite IH. ring.
Qed.
Lemma dot_opp_r : forall x y, dot x (vopp y) = - dot x y.
Proof. intros. rewrite dot_comm, dot_opp_l, dot_comm. auto. Qed.
Lemma dot_zeros_l : forall n y, dot (zeros n) y = 0.
Proof.
  unfold zeros. induction n as [|n IH]; intros [|c y]; simpl; rewrite ?dot_nil_r, ?dot_nil_l, ?dot_cons; try lra.
  rewrite IH. lra.
Qed.
Lemma dot_zeros_r : forall n y, dot y (zeros n) = 0.
Proof. intros. rewrite dot_comm. apply dot_zeros_l. Qed.

Lemma sqn_nonneg : forall x, 0 <= sqn x.
Proof. induction x as [|a x IH]; [unfold sqn, dot; simpl; lra|]. rewrite sqn_cons. nra. Qed.

Lemma sqn_add : forall x y, length x = length y ->
  sqn (vadd x y) = sqn x + 2 * dot x y + sqn y.
Proof. intros. unfold sqn. rewrite dot_add_l, !dot_add_r, (dot_comm y x); vlen. lra. Qed.
Lemma sqn_sub : forall x y, length x = length y ->
  sqn (vsub x y) = sqn x - 2 * dot x y + sqn y.
Proof. intros. unfold sqn. rewrite dot_sub_l, !dot_sub_r, (dot_comm y x); vlen. lra. Qed.
Lemma sqn_scal : forall a x, sqn (vscal a x) = a * a * sqn x.
Proof. intros. unfold sqn. rewrite dot_scal_l, dot_scal_r. ring. Qed.
Lemma sqn_opp : forall x, sqn (vopp x) = sqn x.
Proof. intros. unfold sqn. rewrite dot_opp_l, dot_opp_r. ring. Qed.
Lemma sqn_zeros : forall n, sqn (zeros n) = 0.
Proof. intros. apply dot_zeros_l. Qed.

Lemma sqn_eq_zero : forall x, sqn x = 0 -> x = zeros (length x).
Proof.
  induction x as [|a x IH]; intros H; auto. rewrite sqn_cons in H.
  pose proof (sqn_nonneg x). assert (a = 0) by nra. assert (sqn x = 0) by nra.
  subst a. unfold zeros in *. simpl. rewrite <- IH; auto.
Qed.

Lemma vsub_eq_zero : forall x y, length x = length y -> sqn (vsub x y) <= 0 -> x = y.
Proof.
  intros x y H. pattern x, y. apply vec_ind2; auto.
  intros a b x' y' _ IH. unfold vsub. simpl. rewrite sqn_cons. fold (vsub x' y').
  pose proof (sqn_nonneg (vsub x' y')). intros H1.
  assert ((a - b) = 0) by nra. f_equal; [lra|]. apply IH. nra.
Qed.

Lemma sqn_vsub_sym : forall x y, length x = length y -> sqn (vsub x y) = sqn (vsub y x).
Proof. intros. rewrite !sqn_sub, (dot_comm y x) by congruence. lra. Qed.

Lemma vsub_self : forall x, vsub x x = zeros (length x).
Proof. induction x as [|a x IH]; auto. unfold vsub, zeros in *. simpl. rewrite IH. f_equal. lra. Qed.
Lemma vadd_comm : forall x y, vadd x y = vadd y x.
Proof. unfold vadd. induction x as [|a x IH]; intros [|b y]; simpl; auto. rewrite IH. f_equal. lra. Qed.
Lemma vadd_zeros_r : forall x n, length x = n -> vadd x (zeros n) = x.
Proof. intros x n <-. induction x as [|a x IH]; auto. unfold vadd, zeros in *. simpl. rewrite IH. f_equal. lra. Qed.
Lemma vsub_zeros_r : forall x n, length x = n -> vsub x (zeros n) = x.
Proof. intros x n <-. induction x as [|a x IH]; auto. unfold vsub, zeros in *. simpl. rewrite IH. f_equal. lra. Qed.
Lemma vadd_vsub : forall x y, length x = length y -> vadd (vsub x y) y = x.
Proof.
  intros x y H. pattern x, y. apply vec_ind2; auto. intros a b x' y' _ IH.
  unfold vadd, vsub in *. simpl. rewrite IH. f_equal. lra.
Qed.
Lemma vsub_vadd : forall x y, length x = length y -> vsub (vadd x y) y = x.
Proof.
  intros x y H. pattern x, y. apply vec_ind2; auto. intros a b x' y' _ IH.
  unfold vadd, vsub in *. simpl. rewrite IH. f_equal. lra.
Qed.
Lemma vadd_assoc : forall x y z, length x = length y -> length x = length z ->
  vadd (vadd x y) z = vadd x (vadd y z).
Proof.
  intros x y z H1 H2. pattern x, y, z. apply vec_ind3; auto. intros a b c x' y' z' _ _ IH.
  unfold vadd in *. simpl. rewrite IH. f_equal. lra.
Qed.
Lemma vscal_0 : forall x, vscal 0 x = zeros (length x).
Proof. induction x as [|a x IH]; auto. unfold vscal, zeros in *. simpl. rewrite IH. f_equal. lra. Qed.
Lemma vscal_1 : forall x, vscal 1 x = x.
Proof. induction x as [|a x IH]; auto. unfold vscal in *. simpl. rewrite IH. f_equal. lra. Qed.
Lemma vscal_vscal : forall a b x, vscal a (vscal b x) = vscal (a * b) x.
Proof. intros a b. induction x as [|c x IH]; auto. unfold vscal in *. simpl. rewrite IH. f_equal. ring. Qed.
Lemma vscal_zeros : forall a n, vscal a (zeros n) = zeros n.
Proof. intros a. unfold vscal, zeros. induction n as [|n IH]; simpl; auto. rewrite IH. f_equal. lra. Qed.
Lemma vscal_vadd : forall a x y, vscal a (vadd x y) = vadd (vscal a x) (vscal a y).
Proof. intros a. unfold vscal, vadd. induction x as [|c x IH]; intros [|d y]; simpl; auto. rewrite IH. f_equal. ring. Qed.
Lemma vscal_vsub : forall a x y, vscal a (vsub x y) = vsub (vscal a x) (vscal a y).
Proof. intros a. unfold vscal, vsub. induction x as [|c x IH]; intros [|d y]; simpl; auto. rewrite IH. f_equal. ring. Qed.
Lemma vopp_vscal : forall x, vopp x = vscal (-1) x.
Proof. unfold vopp, vscal. induction x as [|a x IH]; simpl; auto. rewrite IH. f_equal. lra. Qed.

(** ** Cauchy-Schwarz, norms *)

Lemma cauchy_schwarz_sq : forall x y, length x = length y ->
  dot x y * dot x y <= sqn x * sqn y.
Proof.
  intros x y H.
  pose proof (sqn_nonneg (vsub (vscal (sqn y) x) (vscal (dot x y) y))) as H1.
  rewrite sqn_sub, !sqn_scal, dot_scal_l, dot_scal_r in H1 by vlen.
  pose proof (sqn_nonneg x). pose proof (sqn_nonneg y).
  destruct (Req_dec (sqn y) 0) as [E|E].
  - apply sqn_eq_zero in E. rewrite E, dot_zeros_r, sqn_zeros. lra.
  - assert (0 < sqn y) by lra.
    assert (0 <= sqn y * (sqn x * sqn y - dot x y * dot x y)) by nra.
    nra.
Qed.

Lemma norm_nonneg : forall x, 0 <= norm x.
Proof. intros. apply sqrt_pos. Qed.
Lemma norm_sq : forall x, norm x * norm x = sqn x.
Proof. intros. apply sqrt_sqrt. apply sqn_nonneg. Qed.

Lemma cauchy_schwarz : forall x y, length x = length y -> dot x y <= norm x * norm y.
Proof.
  intros x y H. pose proof (cauchy_schwarz_sq x y H). rewrite <- !norm_sq in H0.
  pose proof (norm_nonneg x). pose proof (norm_nonneg y).
  destruct (Rle_dec (dot x y) 0); [nra|].
  apply Rnot_lt_le. intros C. assert (0 <= norm x * norm y) by nra. nra.
Qed.

Lemma norm_zeros : forall n, norm (zeros n) = 0.
Proof. intros. unfold norm. rewrite sqn_zeros. apply sqrt_0. Qed.
Lemma norm_eq_zero : forall x, norm x = 0 -> x = zeros (length x).
Proof. intros x H. apply sqn_eq_zero. rewrite <- norm_sq, H. lra. Qed.
Lemma norm_scal : forall a x, norm (vscal a x) = Rabs a * norm x.
Proof.
  intros. unfold norm. rewrite sqn_scal, sqrt_mult_alt by nra. f_equal. 
  rewrite <- sqrt_Rsqr_abs. reflexivity.
Qed.
Lemma norm_opp : forall x, norm (vopp x) = norm x.
Proof. intros. unfold norm. rewrite sqn_opp. auto. Qed.

Lemma sq_le_nonneg : forall a b, 0 <= b -> a * a <= b * b -> a <= b.
Proof. intros. nra. Qed.
Lemma sq_eq_nonneg : forall a b, 0 <= a -> 0 <= b -> a * a = b * b -> a = b.
Proof. intros. nra. Qed.

Lemma norm_triangle : forall x y, length x = length y -> norm (vadd x y) <= norm x + norm y.
Proof.
  intros x y H. pose proof (norm_nonneg x). pose proof (norm_nonneg y).
  apply sq_le_nonneg; [lra|]. rewrite norm_sq, sqn_add, <- !norm_sq by auto.
  pose proof (cauchy_schwarz x y H). nra.
Qed.

Lemma norm_le_iff : forall x b, 0 <= b -> (norm x <= b <-> sqn x <= b * b).
Proof.
  intros x b Hb. rewrite <- norm_sq. pose proof (norm_nonneg x). split; intros; nra.
Qed.

(** ** nth and extensionality *)

Lemma nth_vzip : forall f x y i d1 d2 d, (i < length x)%nat -> length x = length y ->
  nth i (vzip f x y) d = f (nth i x d1) (nth i y d2).
Proof.
  intros f. induction x as [|a x IH]; intros [|b y] i d1 d2 d Hi Hl; simpl in *; try lia; try discriminate.
  destruct i; auto. apply IH; lia.
Qed.

Lemma nth_map_R : forall (f : R -> R) x i d d', (i < length x)%nat ->
  nth i (map f x) d = f (nth i x d').
Proof.
  intros f. induction x as [|a x IH]; intros i d d' Hi; simpl in *; try lia.
  destruct i; auto. apply IH; lia.
Qed.

Lemma nth_ext_R : forall (x y : vec), length x = length y ->
  (forall i, (i < length x)%nat -> nth i x 0 = nth i y 0) -> x = y.
Proof. intros. apply nth_ext with (d := 0) (d' := 0); auto. Qed.

Lemma Forall2_length_eq : forall (A B : Type) (P : A -> B -> Prop) x y, Forall2 P x y -> length x = length y.
Proof. induction 1; simpl; auto. Qed.

Lemma sqn_sub_cons : forall a x b y, sqn (vsub (a :: x) (b :: y)) = (a - b) * (a - b) + sqn (vsub x y).
Proof. intros. reflexivity. Qed.

Lemma vsum_const : forall n c, vsum (const_vec n c) = INR n * c.
Proof.
  intros n c. unfold const_vec. induction n as [|n IH]; [simpl; lra|].
  rewrite S_INR. simpl repeat. rewrite vsum_cons, IH. lra.
Qed.

Lemma vsum_scal : forall a x, vsum (vscal a x) = a * vsum x.
Proof. intros a. induction x as [|b x IH]; [simpl; lra|]. unfold vscal in *. simpl map. rewrite !vsum_cons, IH. lra. Qed.
Lemma vsum_add : forall x y, length x = length y -> vsum (vadd x y) = vsum x + vsum y.
Proof.
  intros x y H. pattern x, y. apply vec_ind2; auto; [simpl; lra|].
  intros a b x' y' _ IH. unfold vadd in *. simpl vzip. rewrite !vsum_cons, IH. lra.
Qed.
Lemma vsum_sub : forall x y, length x = length y -> vsum (vsub x y) = vsum x - vsum y.
Proof.
  intros x y H. pattern x, y. apply vec_ind2; auto; [simpl; lra|].
  intros a b x' y' _ IH. unfold vsub in *. simpl vzip. rewrite !vsum_cons, IH. lra.
Qed.
