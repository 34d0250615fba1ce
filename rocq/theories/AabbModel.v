(** Model of imodal/Utilities/aabb.py, of the functions of meshutils.py that take a box
    (area_AABB and the fill_area functions), and of the boxes in usefulfunctions.py. *)
From Coq Require Import Reals String List Arith ZArith.
From Verif Require Import Py Tensor KernelModel FieldModel Fl UtilModel.
Import ListNotations.
Open Scope R_scope.
Open Scope list_scope.

(** ** Boxes over any type of numbers with a comparison [kmin > kmax] *)
Section Bounds.
Context {T : Type}.
Variable gt : T -> T -> bool.

Record aabb := mkAABB { a_dim : nat; a_kmin : list T; a_kmax : list T }.

(** A positional argument: a number, or an iterable of numbers. *)
Inductive arg := Num (x : T) | Iter (l : list T).

(** __init_from_two_iterables, 33-42 *)
Fixpoint check (kmin kmax : list T) : res unit :=
  match kmin, kmax with
  | a :: kmin', b :: kmax' => if gt a b then Err ValueError else check kmin' kmax'
  | _, _ => Ok tt
  end.
Definition from_two (kmin kmax : list T) : res aabb :=
  _ <- py_assert (Nat.eqb (length kmin) (length kmax)) ;;
  _ <- check kmin kmax ;;
  Ok (mkAABB (length kmin) kmin kmax).

(** [l[::2]], [l[1::2]] *)
Fixpoint evens {A} (l : list A) : list A :=
  match l with a :: _ :: l' => a :: evens l' | [a] => [a] | [] => [] end.
Fixpoint odds {A} (l : list A) : list A :=
  match l with _ :: b :: l' => b :: odds l' | _ => [] end.

(** __init_from_iterable, 44-57: comparing a number with an iterable raises TypeError (two
    iterables, which Python compares lexicographically, do too here). *)
Fixpoint check_args (kmin kmax : list arg) : res (list T * list T) :=
  match kmin, kmax with
  | Num a :: kmin', Num b :: kmax' =>
      if gt a b then Err ValueError else ' (l, m) <- check_args kmin' kmax' ;; Ok (a :: l, b :: m)
  | _ :: _, _ :: _ => Err TypeError
  | _, _ => Ok ([], [])
  end.
Definition from_iterable (args : list arg) : res aabb :=
  _ <- py_assert (Nat.eqb (length args mod 2) 0) ;;
  ' (kmin, kmax) <- check_args (evens args) (odds args) ;;
  Ok (mkAABB (length args / 2) kmin kmax).

(** __init_from_kwargs, 59-77 *)
Definition prefixes : list string := ["x"; "y"; "z"]%string.
Fixpoint from_prefixes (ps : list string) (kw : list (string * T)) : res (list T * list T) :=
  match ps with
  | [] => Ok ([], [])
  | p :: ps' =>
      match dict_get String.eqb (p ++ "min")%string kw, dict_get String.eqb (p ++ "max")%string kw with
      | Some a, Some b => if gt a b then Err ValueError
                          else ' (l, m) <- from_prefixes ps' kw ;; Ok (a :: l, b :: m)
      | _, _ => Ok ([], [])
      end
  end.
Definition from_kwargs (kw : list (string * T)) : res aabb :=
  ' (kmin, kmax) <- from_prefixes prefixes kw ;; Ok (mkAABB (length kmin) kmin kmax).

(** __init__, 16-31 *)
Definition init (args : list arg) (kw : list (string * T)) : res aabb :=
  _ <- py_assert (match args, kw with [], [] => false | _, _ => true end) ;;
  match args with
  | [] => from_kwargs kw
  | [Iter a; Iter b] => from_two a b
  | _ => from_iterable args
  end.

(** tocouple, totuple, todict, 107-138 *)
Definition tocouple (b : aabb) : list (T * T) := combine (a_kmin b) (a_kmax b).
Definition totuple (b : aabb) : list T := List.concat (map (fun c => [fst c; snd c]) (tocouple b)).
Definition todict (b : aabb) : list (string * T) :=
  map (fun pk => ((fst pk ++ "min")%string, snd pk)) (combine prefixes (a_kmin b)) ++
  map (fun pk => ((fst pk ++ "max")%string, snd pk)) (combine prefixes (a_kmax b)).
End Bounds.
Arguments aabb : clear implicits.
Arguments arg : clear implicits.

(** Real bounds; bounds that may be NaN or infinite. *)
Definition rgt (a b : R) : bool := Rltb b a.
Definition fgt (a b : fl) : bool := flt b a.
Notation box := (aabb R).

(** [torch.min(points, dim=0)[0].tolist()] *)
Definition column (p : tensor) (c : nat) : list R := map (fun i => p @2 i c) (seq 0 (nrows p)).
Definition list_min (l : list R) : R := match l with [] => 0 | a :: l' => fold_left Rmin l' a end.
Definition list_max (l : list R) : R := match l with [] => 0 | a :: l' => fold_left Rmax l' a end.

(** build_from_points, 79-89: reducing an empty axis raises. *)
Definition build_from_points (p : tensor) : res box :=
  if Nat.eqb (nrows p) 0 then Err IndexError
  else init rgt [Iter (map (fun c => list_min (column p c)) (seq 0 (ncols p)));
                 Iter (map (fun c => list_max (column p c)) (seq 0 (ncols p)))] [].

(** shape, centers, 190-197; area, 204-207 *)
Definition lengths (b : box) : list R := map (fun i => nth i (a_kmax b) 0 - nth i (a_kmin b) 0) (seq 0 (a_dim b)).
Definition centers (b : box) : list R := map (fun c => 0.5 * (snd c + fst c)) (combine (a_kmin b) (a_kmax b)).
Definition area (b : box) : res R :=
  _ <- py_assert (Nat.eqb (a_dim b) 2) ;;
  x0 <- at_index (a_kmin b) 0 ;; x1 <- at_index (a_kmax b) 0 ;;
  y0 <- at_index (a_kmin b) 1 ;; y1 <- at_index (a_kmax b) 1 ;;
  Ok (Rabs (x1 - x0) * Rabs (y1 - y0)).

(** fill_random, 214-222; [rand] is what torch.rand(N, dim) returns. *)
Definition fill_random (b : box) (N : nat) (rand : nat -> nat -> R) : tensor :=
  mk2 N (a_dim b) (fun i c => nth c (lengths b) 0 * rand i c + nth c (a_kmin b) 0).

(** fill_random_density, 224-232: the number of points is truncated. *)
Definition fill_random_density (b : box) (density : R) (rand : nat -> nat -> R) : res tensor :=
  let n := Int_part (fold_right Rmult 1 (lengths b) * density) in
  if Rleb (fold_right Rmult 1 (lengths b) * density) (-1) then Err RuntimeError
  else Ok (fill_random b (Z.to_nat n) rand).

(** [torch.linspace(a, b, n)] *)
Definition linspace (a b : R) (n : Z) : res tensor :=
  if Z.ltb n 0 then Err RuntimeError
  else Ok (mk1 (Z.to_nat n) (fun i => if Z.eqb n 1 then a else a + INR i * ((b - a) / IZR (n - 1)))).

(** [torch.arange(a, b, step=s)] *)
Definition ceil (x : R) : Z := (- Int_part (- x))%Z.
Definition arange (a b s : R) : res tensor :=
  if Reqb s 0 then Err RuntimeError
  else if ((Rltb 0 s && Rltb b a) || (Rltb s 0 && Rltb a b))%bool then Err RuntimeError
  else Ok (mk1 (Z.to_nat (ceil ((b - a) / s))) (fun i => a + INR i * s)).

(** [torch.meshgrid(list of vectors)] (row-column indexing): raises on an empty list. *)
Definition meshgrid (l : list tensor) : res (list tensor) :=
  match l with
  | [] => Err RuntimeError
  | _ => let sh := map nrows l in
         Ok (map (fun k => mkT sh (fun idx => (nth k l (tzeros [])) @1 (tnth idx k))) (seq 0 (length l)))
  end.

(** fill_count, 234-248 *)
Inductive counts := CInt (n : Z) | CList (l : list Z).
Definition fill_count (b : box) (c : counts) : res tensor :=
  _ <- py_assert (match c with CInt _ => true | CList l => Nat.eqb (length l) (a_dim b) end) ;;
  let c := match c with CInt n => repeat n (a_dim b) | CList l => l end in
  axes <- mapM (fun x => linspace (fst (fst x)) (snd (fst x)) (snd x)) (combine (combine (a_kmin b) (a_kmax b)) c) ;;
  grids <- meshgrid axes ;;
  grid2vec grids.

(** fill_uniform_spacing_grid, 250-260, fill_uniform_spacing, 262-272 *)
Definition fill_uniform_spacing_grid (b : box) (spacing : R) : res (list tensor) :=
  axes <- mapM (fun x => arange (fst x) (snd x) spacing) (combine (a_kmin b) (a_kmax b)) ;;
  meshgrid axes.
Definition fill_uniform_spacing (b : box) (spacing : R) : res tensor :=
  grids <- fill_uniform_spacing_grid b spacing ;; grid2vec grids.

(** fill_uniform_density, 274-282, for a positive density ([0.] raises; negative numbers
    have complex roots and are left out). *)
Definition fill_uniform_density (b : box) (density : R) : res tensor :=
  if Nat.eqb (a_dim b) 0 then Err ZeroDivisionError
  else if Reqb density 0 then Err ZeroDivisionError
  else fill_uniform_spacing b (1 / Rpower density (1 / INR (a_dim b))).

(** is_inside, 284-286: the last of the accumulated products, cast to booleans. *)
Fixpoint accumulate_mul (acc : nat -> R) (l : list (nat -> R)) : nat -> R :=
  match l with [] => acc | f :: l' => accumulate_mul (fun i => acc i * f i) l' end.
Definition is_inside (b : box) (p : tensor) : res (list bool) :=
  let where_in := fun c => fun i => if (Rleb (nth c (a_kmin b) 0) (p @2 i c) && Rleb (p @2 i c) (nth c (a_kmax b) 0))%bool then 1 else 0 in
  match map where_in (seq 0 (a_dim b)) with
  | [] => Err IndexError
  | f :: l => Ok (map (fun i => negb (Reqb (accumulate_mul f l i) 0)) (seq 0 (nrows p)))
  end.

(** squared_, 289-299: [max(range(len), key)] keeps the first longest side. *)
Fixpoint argmax (l : list R) (i best : nat) (v : R) : nat :=
  match l with [] => best | a :: l' => if Rltb v a then argmax l' (S i) i a else argmax l' (S i) best v end.
Definition about (factors : list R) (ks cs : list R) : list R :=
  map (fun x => fst (fst x) * (snd (fst x) - snd x) + snd x) (combine (combine factors ks) cs).
Definition squared_ (b : box) : res box :=
  if Nat.eqb (a_dim b) 1 then Ok b
  else match lengths b with
       | [] => Err ValueError
       | s0 :: rest =>
           let longest := nth (argmax rest 1 0 s0) (lengths b) 0 in
           scales <- mapM (fun s => if Reqb s 0 then Err ZeroDivisionError else Ok (longest / s)) (lengths b) ;;
           Ok (mkAABB (a_dim b) (about scales (a_kmin b) (centers b)) (about scales (a_kmax b) (centers b)))
       end.

(** scale_, 314-328 *)
Inductive factor := FNum (f : R) | FList (l : list R).
Definition scale_ (b : box) (f : factor) : res box :=
  factors <- match f with
             | FNum f => Ok (repeat f (a_dim b))
             | FList l => _ <- py_assert (Nat.eqb (length l) (a_dim b)) ;; Ok l
             end ;;
  Ok (mkAABB (a_dim b) (about factors (a_kmin b) (centers b)) (about factors (a_kmax b) (centers b))).

(** squared, 301-312, and scale, 330-337, with the objects in a store: the copy is a new
    object and only it is changed. *)
Definition store := list box.
Definition in_place (op : box -> res box) (st : store) (l : nat) : res store :=
  b <- at_index st l ;; b' <- op b ;; Ok (firstn l st ++ b' :: skipn (S l) st).
Definition on_copy (op : box -> res box) (st : store) (l : nat) : res (store * nat) :=
  b <- at_index st l ;;
  st' <- in_place op (st ++ [b]) (length st) ;;
  Ok (st', length st).

(** ** meshutils.py *)

(** area_AABB, 280-300 *)
Definition area_AABB (p : tensor) (b : option box) : res (list bool) :=
  match b with None => Err RuntimeError | Some b => is_inside b p end.

(** [grid[mask]] *)
Definition select_rows (p : tensor) (mask : list bool) : tensor :=
  let kept := filter (fun i => nth i mask false) (seq 0 (nrows p)) in
  mk2 (length kept) (ncols p) (fun i c => p @2 (nth i kept 0%nat) c).

(** fill_area_uniform, 503-527, fill_area_uniform_density, 530-549; [f] is the area. *)
Definition fill_area_uniform (f : tensor -> res (list bool)) (b : box) (spacing : R) : res tensor :=
  grid <- fill_uniform_spacing b spacing ;;
  mask <- f grid ;;
  Ok (select_rows grid mask).
Definition fill_area_uniform_density (f : tensor -> res (list bool)) (b : box) (density : R) : res tensor :=
  if Rltb density 0 then Err ValueError
  else if Reqb density 0 then Err ZeroDivisionError
  else fill_area_uniform f b (1 / sqrt density).

(** fill_area_random, 552-583: rejection sampling.  [draws k] is the k-th result of
    torch.rand(1, dim); [fuel] bounds the number of draws (None: still drawing). *)
Fixpoint draw_until (f : tensor -> res (list bool)) (b : box) (draws : nat -> nat -> R) (k fuel : nat) : option (res (tensor * nat)) :=
  match fuel with
  | O => None
  | S fuel' =>
      let p := fill_random b 1 (fun _ => draws k) in
      match f p with
      | Err e => Some (Err e)
      | Ok m => if forallb (fun x => x) m then Some (Ok (p, S k)) else draw_until f b draws (S k) fuel'
      end
  end.
Fixpoint draw_points (f : tensor -> res (list bool)) (b : box) (draws : nat -> nat -> R) (k n fuel : nat) : option (res (list tensor)) :=
  match n with
  | O => Some (Ok [])
  | S n' =>
      match draw_until f b draws k fuel with
      | None => None
      | Some (Err e) => Some (Err e)
      | Some (Ok (p, k')) =>
          match draw_points f b draws k' n' fuel with
          | None => None
          | Some (Err e) => Some (Err e)
          | Some (Ok l) => Some (Ok (p :: l))
          end
      end
  end.
(** The rows of the result. *)
Definition fill_area_random (f : tensor -> res (list bool)) (b : box) (n : nat) (draws : nat -> nat -> R) (fuel : nat) : option (res (list tensor)) :=
  draw_points f b draws 0 n fuel.

(** ** usefulfunctions.py, 133-177 *)

(** Python's division of two numbers. *)
Definition pydiv (a b : R) : res R := if Reqb b 0 then Err ZeroDivisionError else Ok (a / b).

(** extent_transformation4d, 133-137 *)
Definition extent_transformation4d (e0 e1 : box) : res tensor :=
  scales <- mapM (fun x => pydiv (snd x) (fst x)) (combine (lengths e0) (lengths e1)) ;;
  let translations := map (fun x => snd x - fst x) (combine (a_kmin e0) (a_kmin e1)) in
  s <- scale_matrix4d scales ;;
  t <- translation_matrix4d translations ;;
  Ok (mm s t).

(** width, height, xmin, ymin *)
Definition width (b : box) : res R := a <- at_index (a_kmax b) 0 ;; c <- at_index (a_kmin b) 0 ;; Ok (a - c).
Definition height (b : box) : res R := a <- at_index (a_kmax b) 1 ;; c <- at_index (a_kmin b) 1 ;; Ok (a - c).

(** points2pixels, 140-149, and pixels2points, 152-158; frame_shape = (rows, columns). *)
Definition points2pixels (points : tensor) (rows cols : nat) (e : box) (toindices : bool) : res tensor :=
  w <- width e ;; scale_u <- pydiv (INR cols - 1) w ;;
  h <- height e ;; scale_v <- pydiv (INR rows - 1) h ;;
  xmin <- at_index (a_kmin e) 0 ;; ymin <- at_index (a_kmin e) 1 ;;
  let u := fun i => scale_u * (points @2 i (0%nat) - xmin) in
  let v := fun i => scale_v * (points @2 i (1%nat) - ymin) in
  let fl := fun x => if toindices then IZR (Int_part x) else x in
  Ok (mk2 (nrows points) 2 (fun i c => match c with 0%nat => fl (v i) | _ => fl (u i) end)).
Definition pixels2points (pixels : tensor) (rows cols : nat) (e : box) : res tensor :=
  w <- width e ;; scale_x <- pydiv w (INR cols - 1) ;;
  h <- height e ;; scale_y <- pydiv h (INR rows - 1) ;;
  xmin <- at_index (a_kmin e) 0 ;; ymin <- at_index (a_kmin e) 1 ;;
  Ok (mk2 (nrows pixels) 2 (fun i c => match c with
                                       | 0%nat => scale_x * pixels @2 i (1%nat) + xmin
                                       | _ => scale_y * pixels @2 i (0%nat) + ymin end)).

(** points2nel, 161-169, and nel2points, 172-177 (zip stops at the shortest list); stacking
    an empty list raises. *)
Definition points2nel (points : tensor) (frame_shape : list nat) (e : box) (toindices : bool) : res tensor :=
  scales <- mapM (fun x => pydiv (INR (fst x) - 1) (snd x)) (combine frame_shape (lengths e)) ;;
  let uv := map (fun x => fun r => let y := fst (fst x) * (points @2 r (snd x) - snd (fst x)) in if toindices then IZR (Int_part y) else y)
                (combine (combine scales (a_kmin e)) (seq 0 (a_dim e))) in
  match uv with [] => Err RuntimeError | _ => Ok (stack_dim1 (nrows points) uv) end.
Definition nel2points (nels : tensor) (frame_shape : list nat) (e : box) : res tensor :=
  scales <- mapM (fun x => pydiv (snd x) (INR (fst x) - 1)) (combine frame_shape (lengths e)) ;;
  let xy := map (fun x => fun r => fst (fst x) * nels @2 r (snd x) + snd (fst x))
                (combine (combine scales (a_kmin e)) (seq 0 (a_dim e))) in
  match xy with [] => Err RuntimeError | _ => Ok (stack_dim1 (nrows nels) xy) end.
