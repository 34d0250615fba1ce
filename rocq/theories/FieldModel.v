(** Model of imodal/StructuredFields/.

    A structured field object is a value of type [sfield]; calling it on points
    (a tensor of shape [N; d]) with derivation order [k] is [feval]. *)
From Coq Require Import Reals String List Arith.
From Verif Require Import Py Tensor KernelModel.
Import ListNotations.
Open Scope R_scope.

Inductive backend := Torch | Keops.

(** The constructor arguments kept by each class.  The back end is the one
    resolved by Abstract.py:24-43 (see [BackendModel] for the resolution). *)
Inductive sfield :=
| SF_0 (b : backend) (support moments : tensor) (sigma : R)
| SF_0_u (b : backend) (support moments directions : tensor) (sigma : R)
| SF_1 (b : backend) (support moments : tensor) (sigma : R)
| SF_p (b : backend) (support moments : tensor) (sigma : R)
| SF_m (b : backend) (support moments : tensor) (sigma : R)
| SF_affine (A x0 u : tensor)
| SF_const (moments : tensor)
| SF_null (dim : nat)
| SF_sum (fields : list sfield).

(** What Python does with the possibly-[None] result of [gauss_kernel]: an
    attribute access raises AttributeError, arithmetic raises TypeError. *)
Definition unwrap (e : exn) (g : option tensor) : res tensor :=
  match g with Some t => Ok t | None => Err e end.

(** [(N, M) + tuple(ker_vec.shape[1:])] *)
Definition pair_shape (points support ker : tensor) : list nat :=
  nrows points :: nrows support :: tl (shape ker).

(** StructuredField_0.py:15-22 [_compute_reduction_torch]. *)
Definition sf0_torch (support moments : tensor) (sigma : R) (points : tensor) (k : nat) : res tensor :=
  let dim := ncols support in
  match k with
  | 0%nat => Ok (mm (K_xy points support sigma) moments)
  | _ =>
      g <- gauss_kernel (rel_differences points support) k sigma ;;
      ker <- unwrap AttributeError g ;;
      let ker_vec := reshape (pair_shape points support ker) ker in
      Ok (tensordot (transpose 0 2 (outer (eye dim) ker_vec)) moments [2; 3]%nat [1; 0]%nat)
  end.

(** KeOps [Genred(formula, ..., reduction_op='Sum', axis=1)] with output dimension
    [D]: for each i, the sum over j of the formula. *)
Definition genred (N M D : nat) (formula : nat -> nat -> tensor) : tensor :=
  mk2 N D (fun i q => rsum M (fun j => (formula i j) @1 q)).

(** Row i of a matrix as a vector. *)
Definition row (t : tensor) (i : nat) : tensor := mk1 (ncols t) (fun c => t @2 i c).

Definition sqnorm2 (v : tensor) : R := rsum (tnth (shape v) 0) (fun c => v @1 c ^ 2).

(** [self.__keops_sigma], Abstract.py:72. *)
Definition keops_S (sigma : R) : R := 1 / sigma / sigma.

(** StructuredField_0.py:24-42 [_compute_reduction_keops]. *)
Definition sf0_keops (support moments : tensor) (sigma : R) (points : tensor) (k : nat) : res tensor :=
  let dim := ncols support in
  let S := keops_S sigma in
  let N := nrows points in
  let M := nrows support in
  match k with
  | 0%nat =>
      Ok (reshape [N; dim]
        (genred N M dim (fun i j =>
           let d := tsub (row points i) (row support j) in
           tscal (exp (- S * sqnorm2 d / 2)) (row moments j))))
  | 1%nat =>
      Ok (transpose 1 2 (reshape [N; dim; dim]
        (genred N M (dim * dim) (fun i j =>
           let d := tsub (row points i) (row support j) in
           k_tensorprod (tscal (- S * exp (- S * sqnorm2 d / 2)) d) (row moments j)))))
  | _ => Err RuntimeError
  end.

(** StructuredField_0_u.py:23-30; the KeOps version (32-33) calls the torch one. *)
Definition sf0u_torch (support moments directions : tensor) (sigma : R) (points : tensor) (k : nat)
  : res tensor :=
  match k with
  | 0%nat =>
      g <- gauss_kernel (rel_differences points support) 1 sigma ;;
      ker <- unwrap AttributeError g ;;
      let ker_vec := reshape (pair_shape points support ker) ker in
      Ok (mm (einsum "ijk, jk->ij" [topp ker_vec; directions]) moments)
  | _ => Err NotImplementedError
  end.

(** StructuredField_1.py:15-26.  The ellipsis of line 26 is expanded for k = 1
    ('ijkl,j->ikl'); for k = 2 gauss_kernel raises, for k >= 3 it returns None
    which is multiplied by an integer. *)
Definition sf1_torch (support moments : tensor) (sigma : R) (points : tensor) (k : nat) : res tensor :=
  match k with
  | 0%nat =>
      g <- gauss_kernel (rel_differences support points) 1 sigma ;;
      dK <- unwrap AttributeError g ;;
      let dK := reshape [nrows support; nrows points; ncols points] dK in
      let dK := transpose 0 1 dK in
      Ok (einsum "ijk,j->ik" [dK; moments])
  | _ =>
      g <- gauss_kernel (rel_differences support points) (k + 1) sigma ;;
      dK <- unwrap TypeError g ;;
      let dK := tscal ((-1) ^ k) dK in
      let dK := reshape (nrows support :: nrows points :: ncols points :: tl (tl (shape dK))) dK in
      let dK := transpose 0 1 dK in
      Ok (einsum "ijkl,j->ikl" [dK; moments])
  end.

(** StructuredField_pm.py:20-23 [_compute_reduction_torch]. *)
Definition sfpm_torch (support P : tensor) (sigma : R) (points : tensor) (k : nat) : res tensor :=
  let dim := ncols support in
  g <- gauss_kernel (rel_differences points support) (k + 1) sigma ;;
  ker <- unwrap TypeError g ;;
  let ker := topp ker in
  let ker_vec := reshape (pair_shape points support ker) ker in
  Ok (tensordot (transpose 0 2 (outer (eye dim) ker_vec)) P [2; 3; 4]%nat [1; 0; 2]%nat).

(** StructuredField_pm.py:25-48 [_compute_reduction_keops]. *)
Definition sfpm_keops (support P : tensor) (sigma : R) (points : tensor) (k : nat) : res tensor :=
  let dim := ncols support in
  let S := keops_S sigma in
  let N := nrows points in
  let M := nrows support in
  let Pf := reshape [M; (dim * dim)%nat] P in
  match k with
  | 0%nat =>
      Ok (reshape [N; dim]
        (genred N M dim (fun i j =>
           let d := tsub (row points i) (row support j) in
           k_tensordot (tscal (S * exp (- S * sqnorm2 d / 2)) d) (row Pf j)
                       [dim] [dim; dim] [0]%nat [1]%nat)))
  | 1%nat =>
      Ok (transpose 1 2 (reshape [N; dim; dim]
        (genred N M (dim * dim) (fun i j =>
           let d := tsub (row points i) (row support j) in
           let ker := tscal (- S * exp (- S * sqnorm2 d / 2))
                        (tsub (tscal S (k_tensordot d d [dim] [dim] [] []))
                              (tflatten (eye dim))) in
           k_tensordot ker (row Pf j) [dim; dim] [dim; dim] [1]%nat [1]%nat))))
  | _ => Err RuntimeError
  end.

(** StructuredField_pm.py:58-59 and 66-67 [_compute_moment_matrix]. *)
Definition p_matrix (moments : tensor) : tensor :=
  tmap (fun x => x / 2) (tadd moments (transpose 1 2 moments)).
Definition m_matrix (moments : tensor) : tensor :=
  tmap (fun x => x / 2) (tsub moments (transpose 1 2 moments)).

(** [torch.zeros([N] + [d]*(k+1))] *)
Definition zeros_k (points : tensor) (k : nat) : tensor :=
  tzeros (nrows points :: repeat (ncols points) (k + 1)).

(** StructuredField_Affine.py:29-35. *)
Definition affine_call (A x0 u : tensor) (points : tensor) (k : nat) : res tensor :=
  let N := nrows points in
  let d := ncols points in
  match k with
  | 0%nat =>
      let diff := mk3 N 1 d (fun n _ c => points @2 n c - x0 @1 c) in
      let At := mk3 N d d (fun _ i j => (transpose 0 1 A) @2 i j) in
      let r := reshape [N; d] (bmm diff At) in
      Ok (mk2 N d (fun n c => r @2 n c + u @1 c))
  | 1%nat => Ok (mk3 N (nrows A) (ncols A) (fun _ i j => A @2 i j))
  | _ => Ok (zeros_k points k)
  end.

(** ConstantField.py:15-21. *)
Definition const_call (moments : tensor) (points : tensor) (k : nat) : res tensor :=
  _ <- py_assert (Nat.eqb (tnth (shape moments) 0) (ncols points)) ;;
  match k with
  | 0%nat => Ok (mk2 (nrows points) (tnth (shape moments) 0) (fun _ c => moments @1 c))
  | _ => Ok (zeros_k points k)
  end.

(** StructuredField_Null.py:10-12. *)
Definition null_call (dim : nat) (points : tensor) (k : nat) : res tensor :=
  _ <- py_assert (Nat.eqb (ncols points) dim) ;;
  Ok (zeros_k points k).

(** [field(points, k)].  Abstract.py:45-47, 118-119; StructuredField_pm.py:14-18. *)
Fixpoint feval (f : sfield) (points : tensor) (k : nat) {struct f} : res tensor :=
  match f with
  | SF_0 Torch s m sg => sf0_torch s m sg points k
  | SF_0 Keops s m sg => sf0_keops s m sg points k
  | SF_0_u _ s m dr sg => sf0u_torch s m dr sg points k
  | SF_1 Torch s m sg => sf1_torch s m sg points k
  | SF_1 Keops _ _ _ => Err NotImplementedError
  | SF_p Torch s m sg => sfpm_torch s (p_matrix m) sg points k
  | SF_p Keops s m sg => sfpm_keops s (p_matrix m) sg points k
  | SF_m Torch s m sg => sfpm_torch s (m_matrix m) sg points k
  | SF_m Keops s m sg => sfpm_keops s (m_matrix m) sg points k
  | SF_affine A x0 u => affine_call A x0 u points k
  | SF_const m => const_call m points k
  | SF_null d => null_call d points k
  | SF_sum fs =>
      (* sum([field(points, k) for field in self.__fields]) *)
      ts <- (fix evals (fs : list sfield) : res (list tensor) :=
               match fs with
               | [] => Ok []
               | f :: fs' => t <- feval f points k ;; ts <- evals fs' ;; Ok (t :: ts)
               end) fs ;;
      Ok (tsum ts)
  end.

(** [field.dim]. *)
Fixpoint fdim (f : sfield) : nat :=
  match f with
  | SF_0 _ s _ _ | SF_0_u _ s _ _ _ | SF_1 _ s _ _ | SF_p _ s _ _ | SF_m _ s _ _ => ncols s
  | SF_affine A _ _ => nrows A
  | SF_const m => tnth (shape m) 0
  | SF_null d => d
  | SF_sum [] => 0
  | SF_sum (f :: _) => fdim f
  end.

(** Abstract.py:100-110: constructor of SumStructuredField, which asserts that all
    dimensions agree ([shared_tensors_property] returns None on an empty list or
    on differing values). *)
Definition sum_ctor (fs : list sfield) : res sfield :=
  match fs with
  | [] => Err AssertionError
  | f :: fs' =>
      if forallb (fun g => Nat.eqb (fdim g) (fdim f)) fs' then Ok (SF_sum fs)
      else Err AssertionError
  end.
