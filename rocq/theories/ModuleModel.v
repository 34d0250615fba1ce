(** Model of imodal/DeformationModules/ and of
    imodal/HamiltonianDynamic/hamiltonian.py.

    A deformation module is represented by the values its object holds: its
    parameters, the gd and cotan of its manifold, its controls, and the quantities
    that some modules cache.  Methods that modify the object return the new object.
    When a method raises, the partial modifications made before are not kept.
    Devices, dtypes, labels, gradients and printing are left out.

    [torch.linalg.solve] and the KeOps solvers ([KernelSolve], [LazyTensor.solve])
    are the argument [sv]: [sv A B] is the answer to A X = B (any value or
    exception); what is assumed of it is [exact_solver] in [SpecModule]. *)
From Coq Require Import Reals String List Arith.
From Verif Require Import Py Tensor KernelModel FieldModel GeometryModel.
Import ListNotations.
Open Scope string_scope.
Open Scope list_scope.
Open Scope R_scope.

Definition solver := tensor -> tensor -> res tensor.

(** Controls of a module: a tensor, or for a compound the list of the members'. *)
Inductive ctrl :=
| CLeaf (t : tensor)
| CList (l : list ctrl).

(** What ImplicitModule1 keeps from its last solve: aqh, lambdas, moments. *)
Record cache1 := mkC1 { c_aqh : tensor; c_lam : tensor; c_mom : tensor }.

(** The classes, with the arguments of their constructors:
    GlobalTranslation.py:11-15, Translation.py:13-18, ImplicitModule0.py (same
    fields and nu, coeff), OrientedTranslation.py:15-21 (both back ends resolve to
    the torch class, 129), LocalConstrainedTranslations.py:12-22 (idem, 142),
    Linear.py:10-16, SilentLandmark.py:12-15, ImplicitModule1.py:27-44,
    ImplicitDivFree.py:27-44, ImplicitARAP.py:29-53 (cached lambdas last),
    Combination.py:20-23. *)
Inductive dmod :=
| MGlobal (dim : nat) (coeff : R) (h : tensor)
| MTrans (b : backend) (sigma : R) (dim nb : nat) (gd cotan h : tensor)
| MImp0 (b : backend) (sigma nu coeff : R) (dim nb : nat) (gd cotan h : tensor)
| MOriented (sigma coeff : R) (tr : transport) (dim nb : nat)
            (gd0 gd1 cotan0 cotan1 h : tensor)
| MLocal (sigma coeff : R) (f_support f_vectors : tensor -> res tensor) (dim nb : nat)
         (gd cotan h : tensor)
| MLinear (A : tensor) (coeff : R) (gd cotan h : tensor)
| MSilent (man : gman)
| MImp1 (b : backend) (sigma nu coeff : R) (C : tensor) (dim nb : nat)
        (gd0 gd1 cotan0 cotan1 h : tensor) (cache : option cache1)
| MDivFree (sigma cdiv nu coeff : R) (dim n0 n1 : nat) (gd cotan h : tensor)
           (lam : option tensor)
| MArap (sigma carap nu coeff : R) (dim n0 n1 : nat) (gd cotan h : tensor)
        (lam : option tensor)
| MComp (ms : list dmod).

(** The property [manifold] of each class; Combination.py:83-85. *)
Fixpoint mod_manifold (m : dmod) : gman :=
  match m with
  | MGlobal dim _ _ => GEmpty dim
  | MTrans _ _ dim nb gd cotan _ => GLm dim nb gd cotan
  | MImp0 _ _ _ _ dim nb gd cotan _ => GLm dim nb gd cotan
  | MOriented _ _ tr dim nb gd0 gd1 c0 c1 _ => GDir tr dim nb gd0 gd1 c0 c1
  | MLocal _ _ _ _ dim nb gd cotan _ => GLm dim nb gd cotan
  | MLinear A _ gd cotan _ => GLm (nrows A) 1 gd cotan
  | MSilent man => man
  | MImp1 _ _ _ _ _ dim nb gd0 gd1 c0 c1 _ _ => GFrame dim nb gd0 gd1 c0 c1
  | MDivFree _ _ _ _ dim n0 n1 gd cotan _ _ => GLm dim (n0 + n1) gd cotan
  | MArap _ _ _ _ dim n0 n1 gd cotan _ _ => GLm dim (n0 + n1) gd cotan
  | MComp ms => GComp (map mod_manifold ms)
  end.

(** The property [dim] of manifolds (Compound.py:38-40: that of the first member;
    an empty compound raises IndexError, here 0). *)
Fixpoint gdim (m : gman) : nat :=
  match m with
  | GLm dim _ _ _ | GDir _ dim _ _ _ _ _ | GFrame dim _ _ _ _ _ | GEmpty dim => dim
  | GCLm dim _ _ _ _ _ _ _ _ => dim
  | GComp [] => 0
  | GComp (m :: _) => gdim m
  end.

(** The property [controls] (SilentLandmark.py:44-45: an empty tensor). *)
Fixpoint controls (m : dmod) : ctrl :=
  match m with
  | MGlobal _ _ h | MTrans _ _ _ _ _ _ h | MImp0 _ _ _ _ _ _ _ _ h
  | MOriented _ _ _ _ _ _ _ _ _ h | MLocal _ _ _ _ _ _ _ _ h | MLinear _ _ _ _ h
  | MImp1 _ _ _ _ _ _ _ _ _ _ _ h _ | MDivFree _ _ _ _ _ _ _ _ _ h _
  | MArap _ _ _ _ _ _ _ _ _ h _ => CLeaf h
  | MSilent _ => CLeaf (tzeros [0%nat])
  | MComp ms => CList (map controls ms)
  end.

(** Effect on the module of writing gd and cotan in its manifold (manifold.fill,
    fill_gd, fill_cotan, move_by, ...): only the manifold's values change.  The
    manifold of a compound shares its members with the modules
    (Combination.py:83-85), so filling it reaches them.  [g] is the manifold after
    the modification; the kinds must agree. *)
Fixpoint set_manifold (m : dmod) (g : gman) {struct m} : res dmod :=
  match m, g with
  | MGlobal _ _ _, GEmpty _ => Ok m
  | MTrans b sg dim nb _ _ h, GLm _ _ gd c => Ok (MTrans b sg dim nb gd c h)
  | MImp0 b sg nu co dim nb _ _ h, GLm _ _ gd c => Ok (MImp0 b sg nu co dim nb gd c h)
  | MOriented sg co tr dim nb _ _ _ _ h, GDir _ _ _ gd0 gd1 c0 c1 =>
      Ok (MOriented sg co tr dim nb gd0 gd1 c0 c1 h)
  | MLocal sg co fs fv dim nb _ _ h, GLm _ _ gd c => Ok (MLocal sg co fs fv dim nb gd c h)
  | MLinear A co _ _ h, GLm _ _ gd c => Ok (MLinear A co gd c h)
  | MSilent _, g => Ok (MSilent g)
  | MImp1 b sg nu co C dim nb _ _ _ _ h ca, GFrame _ _ gd0 gd1 c0 c1 =>
      Ok (MImp1 b sg nu co C dim nb gd0 gd1 c0 c1 h ca)
  | MDivFree sg cd nu co dim n0 n1 _ _ h l, GLm _ _ gd c =>
      Ok (MDivFree sg cd nu co dim n0 n1 gd c h l)
  | MArap sg ca nu co dim n0 n1 _ _ h l, GLm _ _ gd c =>
      Ok (MArap sg ca nu co dim n0 n1 gd c h l)
  | MComp ms, GComp gs =>
      ms' <- (fix go (ms : list dmod) (gs : list gman) : res (list dmod) :=
                match ms, gs with
                | [], [] => Ok []
                | m :: ms', g :: gs' =>
                    m' <- set_manifold m g ;; r <- go ms' gs' ;; Ok (m' :: r)
                | _, _ => Err AssertionError
                end) ms gs ;;
      Ok (MComp ms')
  | _, _ => Err AssertionError
  end.

(** The only element of a tensor of shape [] or [1] (scalar controls). *)
Definition item (t : tensor) : R := get t (repeat 0%nat (List.length (shape t))).

(** Division of a scalar tensor.  Torch answers inf or nan when the divisor is 0;
    as these are not real numbers, the model signals it by ZeroDivisionError. *)
Definition tdiv (x y : R) : res R :=
  if Req_EM_T y 0 then Err ZeroDivisionError else Ok (x / y).

(** Rows [lo, lo + n) of a tensor; [t[:n]] and [t[n:]]. *)
Definition rows_from (lo n : nat) (t : tensor) : tensor :=
  mkT (n :: tl (shape t))
      (fun idx => match idx with i :: r => get t ((lo + i)%nat :: r) | [] => 0 end).
Definition first_rows (n : nat) (t : tensor) : tensor := rows_from 0 n t.
Definition last_rows (n : nat) (t : tensor) : tensor := rows_from n (nrows t - n) t.

(** [torch.cat([a, b], dim=0)] of vectors. *)
Definition cat1 (a b : tensor) : tensor :=
  mk1 (tnth (shape a) 0 + tnth (shape b) 0) (fun k =>
    if Nat.ltb k (tnth (shape a) 0) then a @1 k else b @1 (k - tnth (shape a) 0)%nat).

(** [torch.cat([torch.cat([S1, T], dim=1), torch.cat([T.transpose(1, 0), S2], dim=1)],
    dim=0)], ImplicitARAP.py:207 and ImplicitDivFree.py:180. *)
Definition cat_blocks (S1 T S2 : tensor) : tensor :=
  let n := nrows S1 in
  mk2 (n + nrows S2) (n + nrows S2) (fun i j =>
    if Nat.ltb i n
    then (if Nat.ltb j n then S1 @2 i j else T @2 i (j - n)%nat)
    else (if Nat.ltb j n then (transpose 1 0 T) @2 (i - n)%nat j else S2 @2 (i - n)%nat (j - n)%nat)).

(** [A + nu * torch.eye(n)] *)
Definition add_diag (A : tensor) (nu : R) (n : nat) : tensor := tadd A (tscal nu (eye n)).

(** ** Order-0 modules *)

(** "(Exp(-S*SqNorm2(x - y)/IntCst(2))*px | py)/IntCst(2)" (Translation.py:112) and
    "(Exp(-S*SqNorm2(x - y))*px | py)" (ImplicitModule0.py:129), reduced over i
    (axis=0) and then summed over j. *)
Definition keops_cost (formula : R -> R -> R) (gd h : tensor) : R :=
  let N := nrows gd in
  rsum N (fun j => rsum N (fun i =>
    formula (sqnorm2 (tsub (row gd i) (row gd j)))
            (rsum (ncols h) (fun c => h @2 i c * h @2 j c)))).

Definition trans_cost (b : backend) (sigma : R) (gd h : tensor) : R :=
  match b with
  | Torch => (* Translation.py:87-91 *)
      let m := mm (K_xx gd sigma) h in
      (1 / 2) * tdot m h
  | Keops => (* Translation.py:112-114, 124-125; S = 1/sigma/sigma (110) *)
      let S := 1 / sigma / sigma in
      keops_cost (fun q p => exp (- S * q / 2) * p / 2) gd h
  end.

Definition imp0_cost (b : backend) (sigma nu coeff : R) (gd h : tensor) : R :=
  match b with
  | Torch => (* ImplicitModule0.py:106-109 *)
      let m := tadd (mm (K_xx gd sigma) h) (tscal nu h) in
      (1 / 2) * coeff * tdot m h
  | Keops => (* ImplicitModule0.py:127-135, 151-159; S = 0.5/sigma/sigma (126) *)
      let S := (1 / 2) / sigma / sigma in
      let red := keops_cost (fun q p => exp (- S * q) * p) gd h in
      let sq := rsum (prod (shape h)) (fun k => (tflatten h) @1 k ^ 2) in
      (1 / 2) * coeff * (red + nu * sq)
  end.

(** Matrix of the KeOps formulas "Exp(-S*SqNorm2(x - y)/IntCst(2))*X"
    (Translation.py:116) and "Exp(-S*SqNorm2(x - y))*X" (ImplicitModule0.py:137). *)
Definition keops_kernel (formula : R -> R) (gd : tensor) : tensor :=
  let N := nrows gd in
  mk2 N N (fun i j => formula (sqnorm2 (tsub (row gd i) (row gd j)))).

Definition trans_geodesic (sv : solver) (b : backend) (sigma : R) (gd v : tensor) : res tensor :=
  match b with
  | Torch => (* Translation.py:93-98 *) sv (K_xx gd sigma) v
  | Keops => (* Translation.py:116-118, 127-129, alpha=0. *)
      let S := 1 / sigma / sigma in
      sv (add_diag (keops_kernel (fun q => exp (- S * q / 2)) gd) 0 (nrows gd)) v
  end.

Definition imp0_geodesic (sv : solver) (b : backend) (sigma nu coeff : R) (nb dim : nat)
    (gd v : tensor) : res tensor :=
  match b with
  | Torch => (* ImplicitModule0.py:111-115 *)
      x <- sv (add_diag (K_xx gd sigma) nu nb) v ;; Ok (tmap (fun r => r / coeff) x)
  | Keops => (* ImplicitModule0.py:137-142, 161-171, alpha=nu *)
      let S := (1 / 2) / sigma / sigma in
      x <- sv (add_diag (keops_kernel (fun q => exp (- S * q)) gd) nu (nrows gd)) v ;;
      Ok (tmap (fun r => r / coeff) (reshape [nb; dim] x))
  end.

(** [controls.unsqueeze(1).repeat(1, dim) * gd[1]], OrientedTranslation.py:81. *)
Definition oriented_moments (dim : nat) (gd1 h : tensor) : tensor :=
  mk2 (nrows gd1) dim (fun i c => h @1 i * gd1 @2 i c).

(** OrientedTranslation.py:95-99. *)
Definition oriented_cost (sigma coeff : R) (dim : nat) (gd0 gd1 h : tensor) : R :=
  let hm := oriented_moments dim gd1 h in
  (1 / 2) * coeff * tdot (mm (K_xx gd0 sigma) hm) hm.

(** OrientedTranslation.py:101-106. *)
Definition oriented_geodesic (sv : solver) (sigma coeff : R) (gd0 gd1 v : tensor) : res tensor :=
  let Z := tmul (K_xx gd0 sigma) (mm gd1 (transpose 0 1 gd1)) in
  let rhs := einsum "ni, ni->n" [v; gd1] in
  x <- sv Z (reshape [tnth (shape rhs) 0; 1%nat] rhs) ;;
  Ok (tmap (fun r => r / coeff) (tflatten x)).

(** [torch.dot(torch.mm(K_xx(support), vectors).flatten(), vectors.flatten())],
    LocalConstrainedTranslations.py:104-111 and 120-122. *)
Definition local_norm (sigma : R) (support vectors : tensor) : R :=
  tdot (mm (K_xx support sigma) vectors) vectors.

(** ** Implicit module of order 1 *)

(** ImplicitModule1.py:178-188 and 270-280. *)
Definition imp1_aqh (dim nb : nat) (e C gd1 h : tensor) : tensor :=
  einsum "nli, nik, k, nui, niv, lvt -> nt"
    [gd1; C; h; mk3 nb dim dim (fun _ i j => (eye dim) @2 i j); transpose 1 2 gd1; e].

(** ImplicitModule1.py:190-191 (torch) and 264-268 (KeOps): the matrix of the system. *)
Definition imp1_sks (b : backend) (sigma nu : R) (dim nb : nat) (e gd0 : tensor) : res tensor :=
  let u := u_tensor dim e in
  sks <- match b with
         | Torch => compute_sks gd0 sigma 1 u
         | Keops => compute_sks_keops gd0 sigma 1 u
         end ;;
  Ok (add_diag sks nu (sym_dim dim * nb)).

(** [tensordot(lambdas.view(-1, sym_dim), transpose(eta, 0, 2), dims=1)] *)
Definition lam_moments (nb s : nat) (e lam : tensor) : tensor :=
  tensordot (reshape [nb; s] lam) (transpose 0 2 e) [1]%nat [0]%nat.

(** ImplicitModule1.py:174-176, 193-199 (torch) and 260-262, 282-287 (KeOps):
    [compute_moments]. *)
Definition imp1_moments (sv : solver) (b : backend) (sigma nu : R) (C : tensor) (dim nb : nat)
    (gd0 gd1 h : tensor) : res cache1 :=
  e <- eta dim ;;
  sks <- imp1_sks b sigma nu dim nb e gd0 ;;
  let aqh := imp1_aqh dim nb e C gd1 h in
  let n := (nb * sym_dim dim)%nat in
  lam <- match b with
         | Torch => sv sks (tflatten aqh)
         | Keops => sv sks (reshape [n; 1%nat] aqh)
         end ;;
  Ok (mkC1 aqh lam (lam_moments nb (sym_dim dim) e lam)).

(** [h = zeros(r); h[i] = 1] *)
Definition basis_vec (r i : nat) : tensor := mk1 r (fun k => delta i k).

(** ImplicitModule1.py:202-213 (torch) and 289-300 (KeOps): aq and aqkiaq. *)
Definition imp1_aqkiaq (sv : solver) (dim nb r : nat) (e C gd1 sks : tensor)
  : res (tensor * tensor) :=
  let n := (sym_dim dim * nb)%nat in
  let aqi i := tflatten (imp1_aqh dim nb e C gd1 (basis_vec r i)) in
  ls <- mapM (fun i => sv sks (reshape [n; 1%nat] (aqi i))) (seq 0 r) ;;
  let lambdas := mk2 r n (fun i k => (tflatten (nth i ls (tzeros []))) @1 k) in
  let aq := mk2 n r (fun k i => (aqi i) @1 k) in
  Ok (aq, mm lambdas aq).

(** ImplicitModule1.py:157-172 and 243-256: the controls given by the geodesic
    equation, for [vs] the field of the cotangents. *)
Definition imp1_geodesic (sv : solver) (b : backend) (sigma nu coeff : R) (C : tensor)
    (dim nb : nat) (gd0 gd1 : tensor) (vs : sfield) : res tensor :=
  e <- eta dim ;;
  d_vx <- feval vs gd0 1 ;;
  let S := tscal (1 / 2) (tadd d_vx (transpose 1 2 d_vx)) in
  let S := tensordot S e [1; 2]%nat [0; 1]%nat in
  sks <- imp1_sks b sigma nu dim nb e gd0 ;;
  let n := (nb * sym_dim dim)%nat in
  tl <- sv sks (reshape [n; 1%nat] S) ;;
  let tl := reshape [n; 1%nat] (tmap (fun x => x / coeff) tl) in
  let r := tnth (shape C) 2 in
  ' p <- imp1_aqkiaq sv dim nb r e C gd1 sks ;;
  c <- sv (snd p) (mm (transpose 0 1 (fst p)) tl) ;;
  Ok (tflatten c).

(** ** Divergence-free and as-rigid-as-possible modules *)

(** ImplicitDivFree.py:160-180 [computeSKS]. *)
Definition div_sks (sigma cdiv nu : R) (dim n0 : nat) (gd : tensor) : res tensor :=
  let X := first_rows n0 gd in
  let Y := last_rows n0 gd in
  g2 <- gauss_kernel (rel_differences X X) 2 sigma ;;
  g2 <- unwrap TypeError g2 ;;
  let ddker := reshape [nrows X; nrows X; ncols X; ncols X] (topp g2) in
  let S1 := tscal (cdiv ^ 2) (einsum "ijkk->ij" [ddker]) in
  let S2 := reshape [(dim * nrows Y)%nat; (dim * nrows Y)%nat]
              (einsum "ij,kl->ikjl" [K_xx Y sigma; eye dim]) in
  g1 <- gauss_kernel (rel_differences X Y) 1 sigma ;;
  g1 <- unwrap AttributeError g1 ;;
  let T := tscal cdiv (reshape [nrows X; (dim * nrows Y)%nat] (tflatten g1)) in
  Ok (add_diag (cat_blocks S1 T S2) nu (nrows S1 + nrows S2)).

(** ImplicitDivFree.py:119 and 156: [cat([zeros(n0), controls.flatten()])]. *)
Definition pad_controls (k : nat) (h : tensor) : tensor := cat1 (tzeros [k]) (tflatten h).

(** ImplicitDivFree.py:155-157. *)
Definition div_moments (sv : solver) (sigma cdiv nu : R) (dim n0 : nat) (gd h : tensor)
  : res tensor :=
  sks <- div_sks sigma cdiv nu dim n0 gd ;;
  sv sks (pad_controls n0 h).

(** ImplicitDivFree.py:183-186. *)
Definition div_field (sigma cdiv : R) (n0 : nat) (gd lam : tensor) : res sfield :=
  let Y := last_rows n0 gd in
  let v0 := SF_0 Torch Y (reshape (shape Y) (last_rows n0 lam)) sigma in
  let v1 := SF_1 Torch (first_rows n0 gd) (tscal cdiv (first_rows n0 lam)) sigma in
  sum_ctor [v0; v1].

(** The top left block [sks[:N, :N]] and the bottom left block [sks[N:, :N]]. *)
Definition block11 (N : nat) (A : tensor) : tensor := mk2 N N (fun i j => A @2 i j).
Definition block21 (N : nat) (A : tensor) : tensor :=
  mk2 (nrows A - N) N (fun i j => A @2 (N + i)%nat j).

(** ImplicitDivFree.py:122-146. *)
Definition div_geodesic (sv : solver) (sigma cdiv nu coeff : R) (dim n0 : nat) (gd : tensor)
    (vs : sfield) : res tensor :=
  sks <- div_sks sigma cdiv nu dim n0 gd ;;
  dv <- feval vs (first_rows n0 gd) 1 ;;
  let b1 := tscal cdiv (einsum "ijj->i" [dv]) in
  v0 <- feval vs (last_rows n0 gd) 0 ;;
  let b0 := tflatten v0 in
  h <- sv (block11 n0 sks) b1 ;;
  let h := topp (mv (block21 n0 sks) h) in
  Ok (tscal (1 / coeff) (tadd h b0)).

(** ImplicitARAP.py:175-207 [computeSKS]. *)
Definition arap_sks (sigma carap nu : R) (dim n0 n1 : nat) (gd : tensor) : res tensor :=
  e <- eta dim ;;
  let s := sym_dim dim in
  let X := first_rows n0 gd in
  let Y := last_rows n0 gd in
  sks <- compute_sks X sigma 1 (u_tensor dim e) ;;
  let S1 := tscal (carap ^ 2) sks in
  let S2 := reshape [(dim * nrows Y)%nat; (dim * nrows Y)%nat]
              (einsum "ij,kl->ikjl" [K_xx Y sigma; eye dim]) in
  g1 <- gauss_kernel (rel_differences X Y) 1 sigma ;;
  g1 <- unwrap AttributeError g1 ;;
  let Dker := reshape [nrows X; nrows Y; dim] g1 in
  let T := einsum "ijk,ul->ijukl" [Dker; eye dim] in
  let T := tensordot (tscal (1 / 2) (tadd T (transpose 3 4 T))) e [3; 4]%nat [0; 1]%nat in
  let T := transpose 2 3 (transpose 1 3 T) in
  let T := tscal carap (reshape [(n0 * s)%nat; (n1 * dim)%nat] T) in
  Ok (add_diag (cat_blocks S1 T S2) nu (nrows S1 + nrows S2)).

(** ImplicitARAP.py:170-172. *)
Definition arap_moments (sv : solver) (sigma carap nu : R) (dim n0 n1 : nat) (gd h : tensor)
  : res tensor :=
  sks <- arap_sks sigma carap nu dim n0 n1 gd ;;
  sv sks (pad_controls (n0 * sym_dim dim) h).

(** ImplicitARAP.py:210-216. *)
Definition arap_field (sigma carap : R) (dim n0 : nat) (gd lam : tensor) : res sfield :=
  e <- eta dim ;;
  let s := sym_dim dim in
  let Y := last_rows n0 gd in
  let v0 := SF_0 Torch Y (reshape (shape Y) (last_rows (s * n0) lam)) sigma in
  let v1 := SF_p Torch (first_rows n0 gd)
              (tscal carap (lam_moments n0 s e (first_rows (n0 * s) lam))) sigma in
  sum_ctor [v0; v1].

(** ImplicitARAP.py:133-161. *)
Definition arap_geodesic (sv : solver) (sigma carap nu coeff : R) (dim n0 n1 : nat) (gd : tensor)
    (vs : sfield) : res tensor :=
  sks <- arap_sks sigma carap nu dim n0 n1 gd ;;
  e <- eta dim ;;
  dv <- feval vs (first_rows n0 gd) 1 ;;
  let Sq := tscal (carap * (1 / 2)) (tadd dv (transpose 1 2 dv)) in
  let b1 := tflatten (tensordot Sq e [1; 2]%nat [0; 1]%nat) in
  v0 <- feval vs (last_rows n0 gd) 0 ;;
  let b0 := tflatten v0 in
  let N := (n0 * sym_dim dim)%nat in
  h <- sv (block11 N sks) b1 ;;
  let h := topp (mv (block21 N sks) h) in
  Ok (tscal (1 / coeff) (tadd h b0)).

(** ** Methods common to all modules *)
Section Methods.
Variable sv : solver.
Variable b0 : backend. (* default back end of the library *)

(** [fill_controls(controls)]: GlobalTranslation.py:47-48, Translation.py:55-56,
    ImplicitModule0.py, OrientedTranslation.py:63-64,
    LocalConstrainedTranslations.py:69-70, Linear.py:51-54 (assert on the shape),
    SilentLandmark.py:47-48, ImplicitModule1.py:105-107, ImplicitDivFree.py,
    ImplicitARAP.py (recompute the moments), Combination.py:74-76.  A list given
    to a module that expects a tensor, or a tensor given to a compound, is not
    modelled faithfully (TypeError). *)
Fixpoint fill_controls (m : dmod) (c : ctrl) {struct m} : res dmod :=
  match m, c with
  | MGlobal dim co _, CLeaf h => Ok (MGlobal dim co h)
  | MTrans b sg dim nb gd ct _, CLeaf h => Ok (MTrans b sg dim nb gd ct h)
  | MImp0 b sg nu co dim nb gd ct _, CLeaf h => Ok (MImp0 b sg nu co dim nb gd ct h)
  | MOriented sg co tr dim nb gd0 gd1 c0 c1 _, CLeaf h =>
      Ok (MOriented sg co tr dim nb gd0 gd1 c0 c1 h)
  | MLocal sg co fs fv dim nb gd ct _, CLeaf h => Ok (MLocal sg co fs fv dim nb gd ct h)
  | MLinear A co gd ct _, CLeaf h =>
      match shape h with
      | [] => Ok (MLinear A co gd ct h)
      | _ => Err AssertionError
      end
  | MSilent man, _ => Ok (MSilent man)
  | MImp1 b sg nu co C dim nb gd0 gd1 c0 c1 _ _, CLeaf h =>
      ca <- imp1_moments sv b sg nu C dim nb gd0 gd1 h ;;
      Ok (MImp1 b sg nu co C dim nb gd0 gd1 c0 c1 h (Some ca))
  | MDivFree sg cd nu co dim n0 n1 gd ct _ _, CLeaf h =>
      l <- div_moments sv sg cd nu dim n0 gd h ;;
      Ok (MDivFree sg cd nu co dim n0 n1 gd ct h (Some l))
  | MArap sg ca nu co dim n0 n1 gd ct _ _, CLeaf h =>
      l <- arap_moments sv sg ca nu dim n0 n1 gd h ;;
      Ok (MArap sg ca nu co dim n0 n1 gd ct h (Some l))
  | MComp ms, CList cs =>
      _ <- py_assert (Nat.eqb (List.length cs) (List.length ms)) ;;
      ms' <- (fix go (ms : list dmod) (cs : list ctrl) : res (list dmod) :=
                match ms, cs with
                | m :: ms', c :: cs' =>
                    m' <- fill_controls m c ;; r <- go ms' cs' ;; Ok (m' :: r)
                | _, _ => Ok []
                end) ms cs ;;
      Ok (MComp ms')
  | _, _ => Err TypeError
  end.

(** The zero controls written by [fill_controls_zero] (shapes given by the
    manifold or by the current controls; a tensor with one element for
    LocalConstrainedTranslations.py:74-75). *)
Fixpoint zero_ctrl (m : dmod) : ctrl :=
  match m with
  | MGlobal _ _ h => CLeaf (tzeros (shape h))
  | MTrans _ _ _ _ gd _ _ | MImp0 _ _ _ _ _ _ gd _ _ => CLeaf (tzeros (shape gd))
  | MOriented _ _ _ _ nb _ _ _ _ _ => CLeaf (tzeros [nb])
  | MLocal _ _ _ _ _ _ _ _ _ => CLeaf (tzeros [1%nat])
  | MLinear _ _ _ _ h => CLeaf (tzeros (shape h))
  | MSilent _ => CLeaf (tzeros [0%nat])
  | MImp1 _ _ _ _ C _ _ _ _ _ _ _ _ => CLeaf (tzeros [tnth (shape C) 2])
  | MDivFree _ _ _ _ _ n0 _ gd _ _ _ => CLeaf (tzeros (shape (last_rows n0 gd)))
  | MArap _ _ _ _ _ n0 _ gd _ _ _ => CLeaf (tzeros (shape (last_rows n0 gd)))
  | MComp ms => CList (map zero_ctrl ms)
  end.

(** [fill_controls_zero()]; Combination.py:80-81. *)
Definition fill_controls_zero (m : dmod) : res dmod := fill_controls m (zero_ctrl m).

(** [cost()]: GlobalTranslation.py:65-66, Linear.py:71-72, SilentLandmark.py:62-63,
    ImplicitModule1.py:154-155 and 240-241 (attributes set by the first
    compute_moments: AttributeError before), ImplicitDivFree.py:116-120,
    ImplicitARAP.py:127-131, Combination.py:91-93. *)
Fixpoint cost (m : dmod) : res R :=
  match m with
  | MGlobal _ co h => Ok ((1 / 2) * co * tdot h h)
  | MTrans b sg _ _ gd _ h => Ok (trans_cost b sg gd h)
  | MImp0 b sg nu co _ _ gd _ h => Ok (imp0_cost b sg nu co gd h)
  | MOriented sg co _ dim _ gd0 gd1 _ _ h => Ok (oriented_cost sg co dim gd0 gd1 h)
  | MLocal sg co fs fv _ _ gd _ h =>
      s <- fs gd ;; v <- fv gd ;;
      Ok ((1 / 2) * co * local_norm sg s v * item h * item h)
  | MLinear _ co _ _ h => Ok ((1 / 2) * co * item h ^ 2)
  | MSilent _ => Ok 0
  | MImp1 _ _ _ co _ _ _ _ _ _ _ _ ca =>
      match ca with
      | None => Err AttributeError
      | Some ca => Ok ((1 / 2) * co * tdot (c_aqh ca) (c_lam ca))
      end
  | MDivFree _ _ _ co _ n0 _ _ _ h l =>
      match l with
      | None => Err AttributeError
      | Some l => Ok ((1 / 2) * co * tdot (pad_controls n0 h) l)
      end
  | MArap _ _ _ co dim n0 _ _ _ h l =>
      match l with
      | None => Err AttributeError
      | Some l => Ok ((1 / 2) * co * tdot (pad_controls (n0 * sym_dim dim) h) l)
      end
  | MComp ms =>
      (fix go (ms : list dmod) : res R :=
         match ms with
         | [] => Ok 0
         | m :: ms' => a <- cost m ;; b <- go ms' ;; Ok (a + b)
         end) ms
  end.

(** [field_generator()]: GlobalTranslation.py:79-80, Translation.py:72-73,
    OrientedTranslation.py:80-81, LocalConstrainedTranslations.py:86-90,
    Linear.py:78-79, SilentLandmark.py:68-69, ImplicitModule1.py:133-135,
    Combination.py:99-100. *)
Fixpoint field_generator (m : dmod) : res sfield :=
  match m with
  | MGlobal _ _ h => Ok (SF_const h)
  | MTrans b sg _ _ gd _ h => Ok (SF_0 b gd h sg)
  | MImp0 b sg _ _ _ _ gd _ h => Ok (SF_0 b gd h sg)
  | MOriented sg _ _ dim _ gd0 gd1 _ _ h => Ok (SF_0 Torch gd0 (oriented_moments dim gd1 h) sg)
  | MLocal sg _ fs fv _ _ gd _ h =>
      s <- fs gd ;; v <- fv gd ;; Ok (SF_0 Torch s (tscal (item h) v) sg)
  | MLinear A _ gd _ h =>
      Ok (SF_affine (tscal (item h) A) (tflatten gd) (tzeros [prod (shape gd)]))
  | MSilent man => Ok (SF_null (gdim man))
  | MImp1 b sg _ _ _ _ _ gd0 _ _ _ _ ca =>
      match ca with
      | None => Err AttributeError
      | Some ca => Ok (SF_p b gd0 (c_mom ca) sg)
      end
  | MDivFree sg cd _ _ _ n0 _ gd _ _ l =>
      match l with None => Err AttributeError | Some l => div_field sg cd n0 gd l end
  | MArap sg ca _ _ dim n0 _ gd _ _ l =>
      match l with None => Err AttributeError | Some l => arap_field sg ca dim n0 gd l end
  | MComp ms =>
      fs <- (fix go (ms : list dmod) : res (list sfield) :=
               match ms with
               | [] => Ok []
               | m :: ms' => f <- field_generator m ;; fs <- go ms' ;; Ok (f :: fs)
               end) ms ;;
      sum_ctor fs
  end.

(** The loop of GlobalTranslation.py:68-77. *)
Definition global_geodesic (dim : nat) (co : R) (h : tensor) (man : gman) : res tensor :=
  let n := tnth (shape h) 0 in
  xs <- mapM (fun i => inner_prod_field man (feval (SF_const (basis_vec n i)))) (seq 0 n) ;;
  Ok (mk1 n (fun i => nth i xs 0 / co)).

(** [compute_geodesic_control(man)]; [adjoint(man)] is
    [man.cot_to_vs(sigma, backend=self.backend)]. *)
Fixpoint compute_geodesic_control (m : dmod) (man : gman) {struct m} : res dmod :=
  match m with
  | MGlobal dim co h =>
      h' <- global_geodesic dim co h man ;; Ok (MGlobal dim co h')
  | MTrans b sg dim nb gd ct _ =>
      vs <- cot_to_vs man sg b b0 ;;
      v <- feval vs gd 0 ;;
      h <- trans_geodesic sv b sg gd v ;;
      Ok (MTrans b sg dim nb gd ct h)
  | MImp0 b sg nu co dim nb gd ct _ =>
      vs <- cot_to_vs man sg b b0 ;;
      v <- feval vs gd 0 ;;
      h <- imp0_geodesic sv b sg nu co nb dim gd v ;;
      Ok (MImp0 b sg nu co dim nb gd ct h)
  | MOriented sg co tr dim nb gd0 gd1 c0 c1 _ =>
      vs <- cot_to_vs man sg Torch b0 ;;
      v <- feval vs gd0 0 ;;
      h <- oriented_geodesic sv sg co gd0 gd1 v ;;
      Ok (MOriented sg co tr dim nb gd0 gd1 c0 c1 h)
  | MLocal sg co fs fv dim nb gd ct _ =>
      (* LocalConstrainedTranslations.py:113-124 *)
      s <- fs gd ;; v <- fv gd ;;
      x <- inner_prod_field man (feval (SF_0 Torch s v sg)) ;;
      h <- tdiv x (co * local_norm sg s v) ;;
      Ok (MLocal sg co fs fv dim nb gd ct (mk0 h))
  | MLinear A co gd ct _ =>
      (* Linear.py:74-76; StructuredField_Affine does not copy A *)
      x <- inner_prod_field man (feval (SF_affine A (tflatten gd) (tzeros [prod (shape gd)]))) ;;
      Ok (MLinear A co gd ct (mk0 (x / co)))
  | MSilent man' => Ok (MSilent man')
  | MImp1 b sg nu co C dim nb gd0 gd1 c0 c1 h ca =>
      vs <- cot_to_vs man sg b b0 ;;
      h' <- imp1_geodesic sv b sg nu co C dim nb gd0 gd1 vs ;;
      fill_controls m (CLeaf h')
  | MDivFree sg cd nu co dim n0 n1 gd ct h l =>
      vs <- cot_to_vs man sg Torch b0 ;;
      h' <- div_geodesic sv sg cd nu co dim n0 gd vs ;;
      fill_controls m (CLeaf h')
  | MArap sg ca nu co dim n0 n1 gd ct h l =>
      vs <- cot_to_vs man sg Torch b0 ;;
      h' <- arap_geodesic sv sg ca nu co dim n0 n1 gd vs ;;
      fill_controls m (CLeaf h')
  | MComp ms =>
      (* Combination.py:95-97: every member with the same manifold *)
      ms' <- (fix go (ms : list dmod) : res (list dmod) :=
                match ms with
                | [] => Ok []
                | m :: ms' =>
                    m' <- compute_geodesic_control m man ;; r <- go ms' ;; Ok (m' :: r)
                end) ms ;;
      Ok (MComp ms')
  end.

(** ** hamiltonian.py *)

(** hamiltonian.py:8-22: an iterable of modules, or a compound (which is iterable:
    its members are put in a new compound).  Another single module is refused by
    the assertion of line 17 (despite the documentation). *)
Definition hamiltonian_of_module (m : dmod) : res dmod :=
  match m with
  | MComp ms => Ok (MComp ms)
  | _ => Err AssertionError
  end.
Definition hamiltonian_of_list (ms : list dmod) : res dmod := Ok (MComp ms).

(** hamiltonian.py:54-56, 36-46. *)
Definition apply_mom (m : dmod) : res R :=
  f <- field_generator m ;; inner_prod_field (mod_manifold m) (feval f).

Definition hamiltonian (m : dmod) : res R :=
  a <- apply_mom m ;; c <- cost m ;; Ok (a - c).

(** hamiltonian.py:48-52. *)
Definition geodesic_controls (m : dmod) : res dmod :=
  compute_geodesic_control m (mod_manifold m).
End Methods.

(** ** The closures of LocalScaling and LocalRotation *)

(** [torch.tensor([[cos(2 pi/3 i), sin(2 pi/3 i)] for i in range(3)])] and
    [[-sin, cos]], LocalConstrainedTranslations.py:169, 204, 207. *)
Definition circle3 : tensor := mk2 3 2 (fun i c =>
  match c with 0%nat => cos (2 * PI / 3 * INR i) | _ => sin (2 * PI / 3 * INR i) end).
Definition circle3_tangent : tensor := mk2 3 2 (fun i c =>
  match c with 0%nat => - sin (2 * PI / 3 * INR i) | _ => cos (2 * PI / 3 * INR i) end).

(** [gd.repeat(3, 1) + sigma/3. * circle]: the addition raises RuntimeError when
    gd does not hold one point of the plane (the broadcast of the case dim = 1 is
    not modelled). *)
Definition circle_support (sigma : R) (gd : tensor) : res tensor :=
  match shape gd with
  | [1%nat; 2%nat] => Ok (mk2 3 2 (fun i c => gd @2 0%nat c + sigma / 3 * circle3 @2 i c))
  | _ => Err RuntimeError
  end.

(** LocalConstrainedTranslations.py:145-174. *)
Definition LocalScaling (dim : nat) (sigma coeff : R) (gd cotan : tensor) : dmod :=
  MLocal sigma coeff (circle_support sigma) (fun _ => Ok circle3) dim 1 gd cotan (mk0 0).

(** LocalConstrainedTranslations.py:209-216: the tetrahedron and the cross product. *)
Definition tetra : tensor := mk2 4 3 (fun i c =>
  match i with
  | 0%nat => 1
  | 1%nat => match c with 0%nat => 1 | _ => -1 end
  | 2%nat => match c with 1%nat => 1 | _ => -1 end
  | _ => match c with 2%nat => 1 | _ => -1 end
  end).

Definition rot3_vectors (gd : tensor) : res tensor :=
  match shape gd with
  | [2%nat; 3%nat] =>
      let w c := gd @2 1%nat c - gd @2 0%nat c in
      Ok (mk2 4 3 (fun i c =>
        let t c := tetra @2 i c in
        match c with
        | 0%nat => t 1%nat * w 2%nat - t 2%nat * w 1%nat
        | 1%nat => t 2%nat * w 0%nat - t 0%nat * w 2%nat
        | _ => t 0%nat * w 1%nat - t 1%nat * w 0%nat
        end))
  | _ => Err RuntimeError
  end.

Definition rot3_support (sigma : R) (gd : tensor) : res tensor :=
  match shape gd with
  | [2%nat; 3%nat] => Ok (mk2 4 3 (fun i c => gd @2 0%nat c + sigma / 3 * tetra @2 i c))
  | _ => Err RuntimeError
  end.

(** LocalConstrainedTranslations.py:177-227. *)
Definition LocalRotation (dim : nat) (sigma coeff : R) (gd cotan : tensor) : dmod :=
  if Nat.eqb dim 3
  then MLocal sigma coeff (rot3_support sigma) rot3_vectors dim 2 gd cotan (mk0 0)
  else MLocal sigma coeff (circle_support sigma) (fun _ => Ok circle3_tangent) dim 1 gd cotan (mk0 0).

(** ** Iteration over a compound (Combination.py:56-65) *)

(** The compound is its own iterator: its state is the attribute [current]. *)
Record citer := mkIter { it_len : nat; it_current : nat }.
Definition it_iter (s : citer) : citer := mkIter (it_len s) 0.
Definition it_next (s : citer) : option nat * citer :=
  if Nat.leb (it_len s) (it_current s) then (None, s)
  else (Some (it_current s), mkIter (it_len s) (S (it_current s))).

(** [for x in compound: body], the loop variable being the index of the member.
    [body] may itself iterate over the same compound, hence takes and returns its
    state; [acc] is whatever the body computes.  The fuel bounds the number of
    turns; [None] when it runs out. *)
Fixpoint for_loop {A} (fuel : nat) (body : nat -> citer -> A -> option (citer * A))
    (s : citer) (acc : A) : option (citer * A) :=
  match fuel with
  | O => None
  | S fuel' =>
      match it_next s with
      | (None, s') => Some (s', acc)
      | (Some i, s') =>
          match body i s' acc with
          | None => None
          | Some (s'', acc') => for_loop fuel' body s'' acc'
          end
      end
  end.

Definition for_in {A} (fuel : nat) (body : nat -> citer -> A -> option (citer * A))
    (s : citer) (acc : A) : option (citer * A) := for_loop fuel body (it_iter s) acc.
