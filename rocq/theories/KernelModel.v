(** Model of imodal/Kernels/kernels.py and imodal/Kernels/SKS.py.

    Point sets are tensors of shape [N; d]. *)
From Coq Require Import Reals String List Arith.
From Verif Require Import Py Tensor.
Import ListNotations.
Open Scope R_scope.

Definition nrows (t : tensor) : nat := tnth (shape t) 0.
Definition ncols (t : tensor) : nat := tnth (shape t) 1.

(** kernels.py:4-6 [scal]: [torch.dot(x.view(-1), y.view(-1))]. *)
Definition scal (x y : tensor) : R := tdot x y.

(** The broadcast difference [x.unsqueeze(1) - y.unsqueeze(0)] of kernels.py
    (lines 11, 16, 21), of shape (N, M, d). *)
Definition unsq_diff (x y : tensor) : tensor :=
  mk3 (nrows x) (nrows y) (ncols x) (fun i j c => x @2 i c - y @2 j c).

(** kernels.py:10-11 [rel_differences]: [.view(-1, x.shape[1])] of it. *)
Definition rel_differences (x y : tensor) : tensor :=
  reshape [(nrows x * nrows y)%nat; ncols x] (unsq_diff x y).

(** kernels.py:14-16 [distances]: Euclidean norm along axis 2. *)
Definition distances (x y : tensor) : tensor :=
  mk2 (nrows x) (nrows y)
      (fun i j => sqrt (rsum (ncols x) (fun c => (unsq_diff x y) @3 i j c ^ 2))).

(** kernels.py:19-21 [sqdistances]: sum of squares along axis 2. *)
Definition sqdistances (x y : tensor) : tensor :=
  mk2 (nrows x) (nrows y)
      (fun i j => rsum (ncols x) (fun c => (unsq_diff x y) @3 i j c ^ 2)).

(** kernels.py:24-26 [K_xx]. *)
Definition K_xx (x : tensor) (sigma : R) : tensor :=
  tmap (fun s => exp (-(1/2) * s / sigma ^ 2)) (sqdistances x x).

(** kernels.py:29-31 [K_xy]. *)
Definition K_xy (x y : tensor) (sigma : R) : tensor :=
  tmap (fun s => exp (-(1/2) * s / sigma ^ 2)) (sqdistances x y).

(** kernels.py:34-47 [gauss_kernel].  [x] has shape (n, d).  The function falls
    through and returns Python's [None] for [k >= 4] although the message of
    line 47 says "k >= 3 not supported". *)
Definition gauss_kernel (x : tensor) (k : nat) (sigma : R) : res (option tensor) :=
  let n := nrows x in
  let dim := ncols x in
  let sigma2 := sigma * sigma in
  (* line 39 *)
  let k_0 := mk1 n (fun i => exp (- rsum dim (fun c => x @2 i c ^ 2) / 2 / sigma2)) in
  match k with
  | 0%nat => Ok (Some k_0)
  | 1%nat => (* line 43 *)
      Ok (Some (mk2 n dim (fun i c => - k_0 @1 i * x @2 i c / sigma2)))
  | 2%nat => (* line 45 *)
      let xx := einsum "ki, kj->kij" [x; x] in
      Ok (Some (mk3 n dim dim
           (fun i a b => (k_0 @1 i * (- (eye dim) @2 a b + xx @3 i a b / sigma2)) / sigma2)))
  | 3%nat => Err NotImplementedError
  | _ => Ok None
  end.

(** SKS.py:9-29 [eta].  Dimensions other than 2 and 3 raise. *)
Definition cst : R := 1 / sqrt 2.

Definition eta2 : tensor :=
  mk3 2 2 3 (fun i j t =>
    match i, j, t with
    | 0, 0, 0 => 1%R | 0, 1, 1 => cst | 1, 0, 1 => cst | 1, 1, 2 => 1%R
    | _, _, _ => 0%R
    end)%nat.

Definition eta3 : tensor :=
  mk3 3 3 6 (fun i j t =>
    match i, j, t with
    | 0, 0, 0 => 1%R | 1, 1, 1 => 1%R | 2, 2, 2 => 1%R
    | 0, 1, 3 => cst | 1, 0, 3 => cst
    | 0, 2, 4 => cst | 2, 0, 4 => cst
    | 1, 2, 5 => cst | 2, 1, 5 => cst
    | _, _, _ => 0%R
    end)%nat.

Definition eta (dim : nat) : res tensor :=
  match dim with
  | 2%nat => Ok eta2
  | 3%nat => Ok eta3
  | _ => Err NotImplementedError
  end.

(** [int(dim * (dim + 1) / 2)], SKS.py:35 and ImplicitModule1.py. *)
Definition sym_dim (dim : nat) : nat := (dim * (dim + 1) / 2)%nat.

(** SKS.py:32-50 [compute_sks].  [u] is the tensor precomputed by the implicit
    modules ([u_tensor] below). *)
Definition compute_sks (x : tensor) (sigma : R) (order : nat) (u : tensor) : res tensor :=
  let dim := ncols x in
  let sd := sym_dim dim in
  let N := nrows x in
  match order with
  | 0%nat =>
      g <- gauss_kernel (rel_differences x x) 0 sigma ;;
      match g with
      | None => Err AttributeError
      | Some g =>
          Ok (reshape [(dim * N)%nat; (dim * N)%nat]
               (permute [0; 2; 1; 3]%nat
                  (einsum "ij, kl -> ijkl" [reshape [N; N] g; eye dim])))
      end
  | 1%nat =>
      g <- gauss_kernel (rel_differences x x) 2 sigma ;;
      match g with
      | None => Err TypeError
      | Some g =>
          let K := einsum "opij, nij -> nop" [u; topp g] in
          Ok (reshape [(sd * N)%nat; (sd * N)%nat]
               (permute [0; 2; 1; 3]%nat (reshape [N; N; sd; sd] K)))
      end
  | _ => Err NotImplementedError
  end.

(** ImplicitModule1.py / ImplicitARAP.py constructors:
    [u = torch.einsum("rs, nst, mru -> tumn", eye(dim), eta, eta)]. *)
Definition u_tensor (dim : nat) (e : tensor) : tensor :=
  einsum "rs, nst, mru -> tumn" [eye dim; e; e].

(** ** KeOps expressions *)

(** KeOps [TensorProd(f, g)]: flattened outer product of two vectors. *)
Definition k_tensorprod (f g : tensor) : tensor := tflatten (outer f g).

(** KeOps [TensorDot(f, g, dimf, dimg, contf, contg)]: the vectors are viewed with
    the given dimensions (row major), contracted, and flattened again. *)
Definition k_tensordot (f g : tensor) (df dg cf cg : list nat) : tensor :=
  tflatten (tensordot (reshape df f) (reshape dg g) cf cg).

(** SKS.py:53-97 [compute_sks_keops] (order 1; for other orders the variable
    [SKS2] is unbound at the [return]).  The symbolic matrix is given by its
    entries [W] (the factor [TT] of line 92-93 carries the right-hand side of the
    solver and is not modelled).  Row [r] stands for the pair (point, component)
    = [(r / s, r mod s)]. *)
Definition rep_rows (x : tensor) (s : nat) : tensor :=
  (* x.repeat(1, s).reshape(-1, dim) *)
  reshape [(nrows x * s)%nat; ncols x]
    (mk2 (nrows x) (s * ncols x) (fun n q => x @2 n (q mod ncols x)%nat)).

Definition one_hot (r s : nat) : tensor := mk1 s (fun o => delta (r mod s)%nat o).

Definition compute_sks_keops (x : tensor) (sigma : R) (order : nat) (u : tensor) : res tensor :=
  let dim := ncols x in
  let s := sym_dim dim in
  let N := nrows x in
  let Ss := 1 / sigma / sigma in
  let X := rep_rows x s in
  match order with
  | 1%nat =>
      Ok (mk2 (N * s) (N * s) (fun r c =>
        let D := mk1 dim (fun i => X @2 r i - X @2 c i) in
        let G := exp (- Ss * rsum dim (fun i => D @1 i ^ 2) / 2) in
        let TP := k_tensorprod D D in
        let E := tflatten (eye dim) in
        let Rm := mk1 (dim * dim) (fun q => - G * (Ss * TP @1 q - E @1 q) * Ss) in
        let V0 := k_tensordot (one_hot r s) (one_hot c s) [s] [s] [] [] in
        let V := k_tensordot V0 (tflatten u) [s; s] [s; s; dim; dim] [0; 1]%nat [0; 1]%nat in
        let W := k_tensordot Rm V [dim; dim] [dim; dim] [0; 1]%nat [0; 1]%nat in
        W @1 0%nat))
  | _ => Err UnboundLocalError
  end.
