(** Model of the ways of reading a box in imodal/Utilities/aabb.py (indexing, named bounds,
    length, area, volume), and of fill_area_random_density in meshutils.py. *)
From Coq Require Import Reals String List Arith ZArith.
From Verif Require Import Py Tensor KernelModel FieldModel Fl UtilModel AabbModel ShootingModel.
Import ListNotations.
Open Scope R_scope.
Open Scope list_scope.

(** xmin, xmax, ymin, ymax, zmin, zmax, 151-173 *)
Definition xmin (b : box) : res R := at_index (a_kmin b) 0.
Definition xmax (b : box) : res R := at_index (a_kmax b) 0.
Definition ymin (b : box) : res R := at_index (a_kmin b) 1.
Definition ymax (b : box) : res R := at_index (a_kmax b) 1.
Definition zmin (b : box) : res R := at_index (a_kmin b) 2.
Definition zmax (b : box) : res R := at_index (a_kmax b) 2.

(** depth, 186-188 (width and height are in AabbModel) *)
Definition depth (b : box) : res R := a <- at_index (a_kmax b) 2 ;; c <- at_index (a_kmin b) 2 ;; Ok (a - c).

(** length, 199-202; volume, 209-212 *)
Definition box_length (b : box) : res R := _ <- py_assert (Nat.eqb (a_dim b) 1) ;; width b.
Definition volume (b : box) : res R :=
  _ <- py_assert (Nat.eqb (a_dim b) 3) ;;
  x1 <- xmax b ;; x0 <- xmin b ;; y1 <- ymax b ;; y0 <- ymin b ;; z1 <- zmax b ;; z0 <- zmin b ;;
  Ok (Rabs (x1 - x0) * Rabs (y1 - y0) * Rabs (z1 - z0)).

(** What an attribute of a box may be: a number, a tuple of numbers, the dimension. *)
Inductive attr := ANum (x : R) | ATuple (l : list R) | ADim (n : nat).
Definition num (r : res R) : res attr := x <- r ;; Ok (ANum x).

(** getattr(box, name), for the names of data; the names of methods, of the class attribute
    dim_prefix and the inherited names, which Python answers too, raise here. *)
Definition getattr (b : box) (name : string) : res attr :=
  if String.eqb name "dim" then Ok (ADim (a_dim b))
  else if String.eqb name "kmin" then Ok (ATuple (a_kmin b))
  else if String.eqb name "kmax" then Ok (ATuple (a_kmax b))
  else if String.eqb name "xmin" then num (xmin b)
  else if String.eqb name "xmax" then num (xmax b)
  else if String.eqb name "ymin" then num (ymin b)
  else if String.eqb name "ymax" then num (ymax b)
  else if String.eqb name "zmin" then num (zmin b)
  else if String.eqb name "zmax" then num (zmax b)
  else if String.eqb name "width" then num (width b)
  else if String.eqb name "height" then num (height b)
  else if String.eqb name "depth" then num (depth b)
  else if String.eqb name "shape" then Ok (ATuple (lengths b))
  else if String.eqb name "centers" then Ok (ATuple (centers b))
  else if String.eqb name "length" then num (box_length b)
  else if String.eqb name "area" then num (area b)
  else if String.eqb name "volume" then num (volume b)
  else Err AttributeError.

(** __getitem__, 94-100; a key is an integer, a string, or something else. *)
Inductive key := KInt (i : Z) | KStr (s : string) | KOther.
Definition getitem (b : box) (k : key) : res attr :=
  match k with
  | KInt i => num (py_nth (totuple b) i)
  | KStr s => getattr b s
  | KOther => Err ValueError
  end.

(** fill_area_random_density, meshutils.py:586-607: int(...) truncates towards zero, and
    torch.zeros refuses a negative number of rows. *)
Definition fill_area_random_density (f : tensor -> res (list bool)) (b : box) (density : R)
    (draws : nat -> nat -> R) (fuel : nat) : option (res (list tensor)) :=
  match area b with
  | Err e => Some (Err e)
  | Ok a => if Rleb (a * density) (-1) then Some (Err RuntimeError)
            else fill_area_random f b (Z.to_nat (Int_part (a * density))) draws fuel
  end.
