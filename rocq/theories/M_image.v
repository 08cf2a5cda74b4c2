(** Model of regreg/affine/image2d.py. *)
From Coq Require Import Reals List Arith.
From Verif Require Import Vec Spec.
Import ListNotations.
Local Open Scope R_scope.

(** A scipy.sparse matrix as the list of its (row, column, value) entries, those of one place adding up. csr_matrix((data, ij), shape)
    refuses positions outside the shape; the sum of matrices of one shape joins the lists. *)
Definition sparse := list (nat * nat * R).
Definition csr (nrow ncol : nat) (T : sparse) : res sparse :=
  if forallb (fun t => ((fst (fst t) <? nrow) && (snd (fst t) <? ncol))%nat%bool) T then Ok T else Err ValueError.
(** D * x, and D.T *)
Definition sp_mul (nrow : nat) (T : sparse) (x : vec) : vec :=
  map (fun r => vsum (map (fun t => if Nat.eqb (fst (fst t)) r then snd t * nth (snd (fst t)) x 0 else 0) T)) (seq 0 nrow).
Definition sp_T (T : sparse) : sparse := map (fun t => (snd (fst t), fst (fst t), snd t)) T.

(** np.indices((r,c)).reshape((2,-1)).T + np.array([a0,b0]), regreg/affine/image2d.py:39,71,86,145,165,180,196 *)
Definition vertices (r c a0 b0 : nat) : list (nat * nat) := map (fun ab => (fst ab + a0, snd ab + b0)%nat) (list_prod (seq 0 r) (seq 0 c)).
(** indices and csr_matrix((s * np.ones, indices)), regreg/affine/image2d.py:44-55 and the blocks after it: row idx + k holds s in
    the column of vertex k shifted by (da, db). The strides of an m x n array of bytes are (n, 1). *)
Definition block (n idx : nat) (verts : list (nat * nat)) (da db : nat) (s : R) : sparse :=
  map (fun kv => (fst kv, (fst (snd kv) + da) * n + (snd (snd kv) + db), s)%nat) (combine (seq idx (length verts)) verts).
(** One edge per vertex: +1 at the vertex and -1 at its neighbour *)
Definition edge_rows (n idx : nat) (verts : list (nat * nat)) (da db : nat) : sparse := block n idx verts 0 0 1 ++ block n idx verts da db (-1).
(** formD_smaller, regreg/affine/image2d.py:5-98. np.indices refuses a negative shape. *)
Definition formD_smaller (m n : nat) : res sparse :=
  if (Nat.eqb m 0 || Nat.eqb n 0)%bool then Err ValueError else
  let nrow := (2 * (m - 1) * (n - 1) + (m - 1) + (n - 1))%nat in
  let inner := vertices (m - 1) (n - 1) 0 0 in
  let right := vertices 1 (n - 1) (m - 1) 0 in
  let top := vertices (m - 1) 1 0 (n - 1) in
  let idx1 := length inner in
  let idx2 := (idx1 + length inner)%nat in
  let idx3 := (idx2 + length right)%nat in
  csr nrow (m * n) (edge_rows n 0 inner 1 0 ++ edge_rows n idx1 inner 0 1 ++ edge_rows n idx2 right 0 1 ++ edge_rows n idx3 top 1 0).
(** formD, regreg/affine/image2d.py:101-209 *)
Definition formD_rows (m n : nat) : nat := (2 * (m * n - 1))%nat.
Definition formD (m n : nat) : res sparse :=
  if (Nat.eqb m 0 || Nat.eqb n 0)%bool then Err ValueError else
  let inner := vertices (m - 1) (n - 1) 0 0 in
  let right := vertices 1 (n - 1) (m - 1) 0 in
  let top := vertices (m - 1) 1 0 (n - 1) in
  let idx1 := length inner in
  let idx2 := (idx1 + length right)%nat in
  let idx3 := (idx2 + length top)%nat in
  csr (formD_rows m n) (m * n) (edge_rows n 0 inner 1 0 ++ edge_rows n idx1 right 0 1 ++ edge_rows n idx2 top 1 0 ++ edge_rows n idx3 inner 0 1).

(** image2d_differences, regreg/affine/image2d.py:211-220. Images and outputs are flattened by rows. *)
Record image2d := mk_image { im_m : nat; im_n : nat; im_D : sparse; im_DT : sparse; im_off : option vec }.
Definition im_new (m n : nat) (off : option vec) : res image2d := rbind (formD m n) (fun D => Ok (mk_image m n D (sp_T D) off)).
(** v.reshape((2, k)).T and u.T.reshape(-1) for u of shape (k, 2), regreg/affine/image2d.py:241,283 *)
Definition two_rows_T (k : nat) (v : vec) : vec := map (fun q => nth ((q mod 2) * k + q / 2) v 0) (seq 0 (2 * k)).
Definition two_cols_T (k : nat) (u : vec) : vec := map (fun q => nth (2 * (q mod k) + q / k) u 0) (seq 0 (2 * k)).
(** linear_map, regreg/affine/image2d.py:222-241; a sparse product refuses another length *)
Definition im_linear (I : image2d) (x : vec) : res vec :=
  if Nat.eqb (length x) (im_m I * im_n I) then Ok (two_rows_T (im_m I * im_n I - 1) (sp_mul (formD_rows (im_m I) (im_n I)) (im_D I) x)) else Err ValueError.
(** affine_map, regreg/affine/image2d.py:243-263 *)
Definition im_affine (I : image2d) (x : vec) : res vec :=
  match im_off I with
  | Some a => rbind (im_linear I x) (fun v => if Nat.eqb (length a) (length v) then Ok (vadd v a) else Err ValueError)
  | None => im_linear I x
  end.
(** adjoint_map, regreg/affine/image2d.py:265-284 *)
Definition im_adjoint (I : image2d) (u : vec) : res vec :=
  if Nat.eqb (length u) (formD_rows (im_m I) (im_n I)) then Ok (sp_mul (im_m I * im_n I) (im_DT I) (two_cols_T (im_m I * im_n I - 1) u)) else Err ValueError.
