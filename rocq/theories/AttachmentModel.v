(** Model of imodal/Attachment/*.py.

    The arguments of attachments are tuples: (points,) or (vertices, faces), or (image,).
    Values are [fl] (real numbers with NaN and infinities, rounding idealised): dividing
    by the length of a degenerate face gives NaN.  The transform 'fft'
    (torch.fft) and the rescaling of images (scale=True) of L2NormAttachment are in
    FourierModel.v. *)
From Coq Require Import Reals String List Arith ZArith.
From Verif Require Import Py Tensor KernelModel FieldModel Fl MeshModel.
Import ListNotations.
Open Scope string_scope.
Open Scope list_scope.
Open Scope R_scope.

Record geo := mkGeo { g_points : tensor; g_faces : option (list face) }.

(** ** Floating-point operations *)

Definition fmul (a b : fl) : fl :=
  match a, b with
  | NaN, _ | _, NaN => NaN
  | Fin x, Fin y => Fin (x * y)
  | Fin x, i | i, Fin x =>
      if Reqb x 0 then NaN
      else if Rltb x 0 then fneg i else i
  | PInf, PInf | NInf, NInf => PInf
  | _, _ => NInf
  end.

(** x / y of two real numbers. *)
Definition rdiv (x y : R) : fl :=
  if Reqb y 0 then (if Reqb x 0 then NaN else if Rltb x 0 then NInf else PInf) else Fin (x / y).

(** torch.sum *)
Fixpoint fsum (n : nat) (f : nat -> fl) : fl :=
  match n with O => Fin 0 | S n' => fadd (fsum n' f) (f n') end.

(** Python's sum of a list. *)
Definition fl_sum (l : list fl) : fl := fold_left fadd l (Fin 0).

(** ** Varifolds, attachment_varifold.py *)

(** [t[a:a+n, :]] *)
Definition rows_from (a n : nat) (t : tensor) : tensor := mk2 n (ncols t) (fun i c => t @2 (a + i)%nat c).

(** dot_varifold, 57-78. *)
Definition dot_varifold (x y : tensor) (sigma : R) : res R :=
  cx <- close_shape x ;;
  cy <- close_shape y ;;
  let nx := nrows x in
  let ny := nrows y in
  let vx := tsub (rows_from 1 nx cx) x in
  let vy := tsub (rows_from 1 ny cy) y in
  let mx := tscal (/ 2) (tadd (rows_from 1 nx cx) x) in
  let my := tscal (/ 2) (tadd (rows_from 1 ny cy) y) in
  let xy := tensordot (transpose 1 2 (outer mx my)) (eye 2) [2%nat; 3%nat] [0%nat; 1%nat] in
  let d2 := mk2 nx ny (fun i j => rsum 2 (fun c => mx @2 i c * mx @2 i c) + rsum 2 (fun c => my @2 j c * my @2 j c)
                                  - 2 * xy @2 i j) in
  let kxy := tmap (fun d => exp (- d / (2 * sigma ^ 2))) d2 in
  let vxvy := tmap (fun s => s ^ 2) (tensordot (transpose 1 2 (outer vx vy)) (eye 2) [2%nat; 3%nat] [0%nat; 1%nat]) in
  let nvx := mk1 nx (fun i => sqrt (rsum 2 (fun c => vx @2 i c ^ 2))) in
  let nvy := mk1 ny (fun j => sqrt (rsum 2 (fun c => vy @2 j c ^ 2))) in
  let nn := outer nvx nvy in
  (* the sum over the entries selected by mask = vxvy > 0 *)
  Ok (rsum nx (fun i => rsum ny (fun j =>
        if Rltb 0 (vxvy @2 i j) then kxy @2 i j * vxvy @2 i j / nn @2 i j else 0))).

(** cost_varifold, 54-80 (torch); the KeOps class raises, 83-88. *)
Definition cost_varifold2 (b : backend) (source target : geo) (sigma : R) : res fl :=
  match b with
  | Keops => Err NotImplementedError
  | Torch =>
      let s := g_points source in
      let t := g_points target in
      ss <- dot_varifold s s sigma ;; tt <- dot_varifold t t sigma ;; st <- dot_varifold s t sigma ;;
      Ok (Fin (ss + tt - 2 * st))
  end.

(** varifold_scalar_product: torch, 118-127, and KeOps, 137-155; the normalized normals
    are tensors of [fl]. *)
Definition varifold_dot (b : backend) (x y lx ly : tensor) (u v : nat -> nat -> fl) (sigma : R) : fl :=
  let uv i j := fsum 3 (fun c => fmul (u i c) (v j c)) in
  let conv i :=
    match b with
    | Torch => fsum (nrows y) (fun j => fmul (fmul (Fin ((K_xy x y sigma) @2 i j)) (fmul (uv i j) (uv i j))) (Fin (ly @2 j (0%nat))))
    | Keops => fsum (nrows y) (fun j => fmul (fmul (Fin (exp (- keops_S sigma * sqnorm2 (tsub (row x i) (row y j)) / 2)))
                                                  (fmul (uv i j) (uv i j))) (Fin (ly @2 j (0%nat))))
    end in
  fsum (nrows x) (fun i => fmul (Fin (lx @2 i (0%nat))) (conv i)).

(** [normals/lengths] *)
Definition normalized (normals lengths : tensor) (i c : nat) : fl := rdiv (normals @2 i c) (lengths @2 i (0%nat)).

(** [vertices, faces = source] *)
Definition unpack_mesh (g : geo) : res (tensor * list face) :=
  match g_faces g with Some f => Ok (g_points g, f) | None => Err ValueError end.

(** cost_varifold, 98-109. *)
Definition cost_varifold3 (b : backend) (source target : geo) (sigma : R) : res fl :=
  ' (vs, fs) <- unpack_mesh source ;;
  ' (vt, ft) <- unpack_mesh target ;;
  ' (cs, ns, ls) <- compute_centers_normals_lengths vs fs ;;
  ' (ct, nt, lt) <- compute_centers_normals_lengths vt ft ;;
  let us := normalized ns ls in
  let ut := normalized nt lt in
  Ok (fsub (fadd (varifold_dot b ct ct lt lt ut ut sigma) (varifold_dot b cs cs ls ls us us sigma))
           (fmul (Fin 2) (varifold_dot b cs ct ls lt us ut sigma))).

(** ** Attachments *)

(** [ACustom]: any other subclass, with its loss. *)
Inductive att :=
| ACustom (weight : R) (loss : geo -> geo -> res fl)
| ANull
| AEuclid (weight : R)
| AL2 (weight : R) (transform : string) (bandwidth : option R)
| AVar2 (weight : R) (b : backend) (sigmas : list R)
| AVar3 (weight : R) (b : backend) (sigmas : list R)
| ACompound (weight : R) (members : list att).

Definition att_weight (a : att) : R :=
  match a with
  | ACustom w _ | AEuclid w | AL2 w _ _ | AVar2 w _ _ | AVar3 w _ _ | ACompound w _ => w
  | ANull => 0
  end.

(** EuclideanPointwiseDistanceAttachment.loss, attachment.py:66-69. *)
Definition euclid_loss (x y : tensor) : R :=
  rsum (nrows x) (fun i => sqrt (rsum (ncols x) (fun c => (x @2 i c - y @2 i c) ^ 2))).

(** torch.dist(source, target)**2 of tensors of the same shape, attachment_l2.py:36-37. *)
Definition l2_loss (x y : tensor) : R := sqrt (tdot (tsub x y) (tsub x y)) ^ 2.

(** L2NormAttachment.__init__, 20-30: unknown transforms are refused; None is 'l2'. *)
Definition l2_attachment (transform : option string) (weight : R) (bandwidth : option R) : res att :=
  let t := match transform with Some t => t | None => "l2" end in
  if (t =? "l2") || (t =? "fft") || (t =? "radon") || (t =? "smooth") then Ok (AL2 weight t bandwidth)
  else Err NotImplementedError.

(** L2NormAttachment.loss, 32-60.  The loss of 'radon' is None, which can be neither
    multiplied nor added (TypeError).  'fft' is left out (NotImplementedError here). *)
Definition l2_call (transform : string) (bandwidth : option R) (x y : tensor) : res fl :=
  if transform =? "l2" then Ok (Fin (l2_loss x y))
  else if transform =? "radon" then Err TypeError
  else if transform =? "smooth" then
    match bandwidth with
    | None => Err RuntimeError
    | Some h =>
        a <- gauss_kernel x 0 h ;; b <- gauss_kernel y 0 h ;;
        match a, b with Some a, Some b => Ok (Fin (l2_loss a b)) | _, _ => Err AttributeError end
    end
  else Err NotImplementedError.

(** loss, of each class; CompoundAttachment.loss, attachment.py:56-57. *)
Fixpoint loss (a : att) (source target : geo) : res fl :=
  match a with
  | ACustom _ f => f source target
  | ANull => Ok (Fin 0)
  | AEuclid _ => Ok (Fin (euclid_loss (g_points source) (g_points target)))
  | AL2 _ t h => l2_call t h (g_points source) (g_points target)
  | AVar2 _ b sigmas => l <- mapM (cost_varifold2 b source target) sigmas ;; Ok (fl_sum l)
  | AVar3 _ b sigmas => l <- mapM (cost_varifold3 b source target) sigmas ;; Ok (fl_sum l)
  | ACompound _ ms => l <- mapM (fun m => loss m source target) ms ;; Ok (fl_sum l)
  end.

(** __call__, attachment.py:38-39. *)
Definition call (a : att) (source target : geo) : res fl :=
  l <- loss a source target ;; Ok (fmul (Fin (att_weight a)) l).

(** The factory, attachment_varifold.py:158-178; [default] is the global back end. *)
Definition varifold_attachment (default : string) (dim : nat) (sigmas : list R) (weight : R) (backend : option string) : res att :=
  let b := match backend with Some b => b | None => default end in
  let make := fun f => if b =? "torch" then Ok (f Torch) else if b =? "keops" then Ok (f Keops) else Err RuntimeError in
  if Nat.eqb dim 2 then make (fun b => AVar2 weight b sigmas)
  else if Nat.eqb dim 3 then make (fun b => AVar3 weight b sigmas)
  else Err RuntimeError.
