(** Model of the geometry of imodal/Manifolds/: action of a vector field on
    geometrical descriptors, pairing with the cotangents, and the field
    associated with the cotangents.

    A manifold object is represented by the values it currently holds (the
    storage itself is in [ManifoldModel]).  The tangents that the object holds
    play no role in these methods and are left out, as are devices and dtypes.
    Vector fields are any callable object: a function of the points and of the
    derivation order; [feval f] is the callable of a structured field [f]. *)
From Coq Require Import Reals String List Arith.
From Verif Require Import Py Tensor KernelModel FieldModel.
Import ListNotations.
Open Scope string_scope.
Open Scope list_scope.
Open Scope R_scope.

Definition vfield := tensor -> nat -> res tensor.

(** LandmarkDirection.py:19-22: the accepted values of [transport]; anything else
    raises RuntimeError. *)
Inductive transport := Vector | Orthogonal.

Definition parse_transport (s : string) : res transport :=
  if String.eqb s "vector" then Ok Vector
  else if String.eqb s "orthogonal" then Ok Orthogonal
  else Err RuntimeError.

(** Landmark.py:7-15, LandmarkDirection.py:7-22, NormalFrame.py:10-24,
    CompoundLandmarks.py:11-20, Empty.py:7-13, Compound.py (list of members).
    For [CompoundLandmarks] the last two fields are the gd and cotan of the two
    inner [Landmarks] that its constructor builds. *)
Inductive gman :=
| GLm (dim nb : nat) (gd cotan : tensor)
| GDir (tr : transport) (dim nb : nat) (gd0 gd1 cotan0 cotan1 : tensor)
| GFrame (dim nb : nat) (gd0 gd1 cotan0 cotan1 : tensor)
| GCLm (dim nb0 nb1 : nat) (gd0 gd1 cotan0 cotan1 : tensor)
       (inner0 inner1 : tensor * tensor)
| GEmpty (dim : nat)
| GComp (ms : list gman).

(** Tangents held by the manifold returned by [infinitesimal_action]. *)
Inductive gtan :=
| TLm (tan : tensor)
| TPair (tan0 tan1 : tensor)
| TEmpty
| TComp (ts : list gtan).

(** [t.shape[i] == n] inside an assert: IndexError when the axis does not exist. *)
Definition assert_axis (t : tensor) (i n : nat) : res unit :=
  match nth_error (shape t) i with
  | None => Err IndexError
  | Some m => py_assert (Nat.eqb m n)
  end.

Definition assert_axes2 (t : tensor) (n m : nat) : res unit :=
  _ <- assert_axis t 0 n ;; assert_axis t 1 m.

(** [t.unsqueeze(2)] of a matrix *)
Definition unsqueeze2 (t : tensor) : tensor :=
  mk3 (nrows t) (ncols t) 1 (fun n c _ => t @2 n c).

(** Landmark.py:25-28. *)
Definition lm_action (dim nb : nat) (gd : tensor) (field : vfield) : res tensor :=
  tan <- field gd 0%nat ;;
  _ <- assert_axes2 tan nb dim ;;
  Ok tan.

(** LandmarkDirection.py:37-44. *)
Definition dir_action (tr : transport) (dim nb : nat) (gd0 gd1 : tensor) (field : vfield)
  : res (tensor * tensor) :=
  tan0 <- field gd0 0%nat ;;
  D <- field gd0 1%nat ;;
  let tan1 := match tr with
              | Vector => bmm D (unsqueeze2 gd1)
              | Orthogonal => topp (bmm (transpose 1 2 D) (unsqueeze2 gd1))
              end in
  _ <- assert_axes2 tan0 nb dim ;;
  _ <- assert_axes2 tan1 nb dim ;;
  Ok (tan0, tan1).

(** NormalFrame.py:35-43. *)
Definition frame_action (dim nb : nat) (gd0 gd1 : tensor) (field : vfield)
  : res (tensor * tensor) :=
  vx <- field gd0 0%nat ;;
  d_vx <- field gd0 1%nat ;;
  let S := tscal (1 / 2) (tsub d_vx (transpose 1 2 d_vx)) in
  let vr := bmm S gd1 in
  _ <- assert_axes2 vx nb dim ;;
  _ <- assert_axes2 vr nb dim ;;
  _ <- assert_axis vr 2 dim ;;
  Ok (vx, vr).

(** [infinitesimal_action(field)]: the tangents of the returned manifold.
    CompoundLandmarks.py:29-35 reads the attribute [self.manifold], which does not
    exist (the attribute is [manifolds]); Empty.py:136-138; Compound.py:158-163. *)
Fixpoint infinitesimal_action (m : gman) (field : vfield) {struct m} : res gtan :=
  match m with
  | GLm dim nb gd _ => t <- lm_action dim nb gd field ;; Ok (TLm t)
  | GDir tr dim nb gd0 gd1 _ _ =>
      ' p <- dir_action tr dim nb gd0 gd1 field ;; Ok (TPair (fst p) (snd p))
  | GFrame dim nb gd0 gd1 _ _ =>
      ' p <- frame_action dim nb gd0 gd1 field ;; Ok (TPair (fst p) (snd p))
  | GCLm _ _ _ _ _ _ _ _ _ => Err AttributeError
  | GEmpty _ => Ok TEmpty
  | GComp ms =>
      ts <- (fix go (ms : list gman) : res (list gtan) :=
               match ms with
               | [] => Ok []
               | m :: ms' => t <- infinitesimal_action m field ;; ts <- go ms' ;; Ok (t :: ts)
               end) ms ;;
      Ok (TComp ts)
  end.

(** [inner_prod_field(field)]: Landmark.py:21-23, LandmarkDirection.py:32-35,
    NormalFrame.py:30-33, CompoundLandmarks.py:26-27, Empty.py:133-134,
    Compound.py:155-156 ([sum] of the members' values). *)
Definition lm_inner (dim nb : nat) (gd cotan : tensor) (field : vfield) : res R :=
  tan <- lm_action dim nb gd field ;; Ok (tdot cotan tan).

Fixpoint inner_prod_field (m : gman) (field : vfield) {struct m} : res R :=
  match m with
  | GLm dim nb gd cotan => lm_inner dim nb gd cotan field
  | GDir tr dim nb gd0 gd1 cotan0 cotan1 =>
      ' p <- dir_action tr dim nb gd0 gd1 field ;;
      Ok (tdot cotan0 (fst p) + tdot cotan1 (snd p))
  | GFrame dim nb gd0 gd1 cotan0 cotan1 =>
      ' p <- frame_action dim nb gd0 gd1 field ;;
      Ok (tdot cotan0 (fst p) + get (einsum "nij, nij->" [cotan1; snd p]) [])
  | GCLm dim nb0 nb1 _ _ _ _ inner0 inner1 =>
      a <- lm_inner dim nb0 (fst inner0) (snd inner0) field ;;
      b <- lm_inner dim nb1 (fst inner1) (snd inner1) field ;;
      Ok (a + b)
  | GEmpty _ => Ok 0
  | GComp ms =>
      (fix go (ms : list gman) : res R :=
         match ms with
         | [] => Ok 0
         | m :: ms' => a <- inner_prod_field m field ;; b <- go ms' ;; Ok (a + b)
         end) ms
  end.

(** [cot_to_vs(sigma, backend)]: Landmark.py:30-31, LandmarkDirection.py:46-54,
    NormalFrame.py:45-51, CompoundLandmarks.py:37-41, Empty.py:140-141,
    Compound.py:152-153.  [b] is the back end resolved from the argument, [b0] the
    default back end, used by the StructuredField_0_u built without argument. *)
Fixpoint cot_to_vs (m : gman) (sigma : R) (b b0 : backend) {struct m} : res sfield :=
  match m with
  | GLm _ _ gd cotan => Ok (SF_0 b gd cotan sigma)
  | GDir tr _ _ gd0 gd1 cotan0 cotan1 =>
      let v0 := SF_0 b gd0 cotan0 sigma in
      let vu := match tr with
                | Vector => SF_0_u b0 gd0 cotan1 gd1 sigma
                | Orthogonal => SF_0_u b0 gd0 (topp gd1) cotan1 sigma
                end in
      sum_ctor [v0; vu]
  | GFrame _ _ gd0 gd1 cotan0 cotan1 =>
      let v0 := SF_0 b gd0 cotan0 sigma in
      let R := einsum "nik, njk->nij" [cotan1; gd1] in
      let vm := SF_m b gd0 R sigma in
      sum_ctor [v0; vm]
  | GCLm _ _ _ gd0 gd1 cotan0 cotan1 _ _ =>
      sum_ctor [SF_0 b gd0 cotan0 sigma; SF_0 b gd1 cotan1 sigma]
  | GEmpty dim => Ok (SF_null dim)
  | GComp ms =>
      fs <- (fix go (ms : list gman) : res (list sfield) :=
               match ms with
               | [] => Ok []
               | m :: ms' => f <- cot_to_vs m sigma b b0 ;; fs <- go ms' ;; Ok (f :: fs)
               end) ms ;;
      sum_ctor fs
  end.

(** A freshly built [CompoundLandmarks(dim, (nb0, nb1))] filled with gd and cotan:
    the fill methods inherited from Manifold write its own container only, so the
    inner Landmarks keep the zero tensors of their construction
    (tensor_container.py:12). *)
Definition compound_landmarks (dim nb0 nb1 : nat) (gd0 gd1 cotan0 cotan1 : tensor) : gman :=
  let zero nb := (tzeros [nb; dim], tzeros [nb; dim]) in
  GCLm dim nb0 nb1 gd0 gd1 cotan0 cotan1 (zero nb0) (zero nb1).
