(** Specification: motions run backwards. *)
From Coq Require Import Reals List Arith.
From Verif Require Import Py Tensor GeometryModel.
Import ListNotations.
Open Scope R_scope.

(** The manifold with opposite moments and the same descriptors: what negate_cotan() leaves
    (Abstract.py:386-387, Compound.py:148-150), as the second, backward shoot of
    deformables_compute_deformed needs it (Models/deformable.py:315-316). *)
Fixpoint reversed (g : gman) : gman :=
  match g with
  | GLm dim nb gd c => GLm dim nb gd (topp c)
  | GDir tr dim nb gd0 gd1 c0 c1 => GDir tr dim nb gd0 gd1 (topp c0) (topp c1)
  | GFrame dim nb gd0 gd1 c0 c1 => GFrame dim nb gd0 gd1 (topp c0) (topp c1)
  | GCLm dim n0 n1 gd0 gd1 c0 c1 i0 i1 => GCLm dim n0 n1 gd0 gd1 (topp c0) (topp c1) i0 i1
  | GEmpty dim => GEmpty dim
  | GComp gs => GComp (map reversed gs)
  end.

(** The same on a list of descriptors followed by as many moments. *)
Definition flip (l : list tensor) : list tensor :=
  let n := Nat.div2 (length l) in firstn n l ++ map topp (skipn n l).
