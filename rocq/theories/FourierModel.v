(** Model of what AttachmentModel leaves out of L2NormAttachment (attachment_l2.py): the
    transform 'fft' and the resizing of images before they are compared
    (interpolate_image, sampling.py:180-186, with its default mode 'nearest').

    Idealisations: real numbers; [torch.fft] is the function of torch 1.3
    (requirements_imodal.txt); in the torch of requirements.txt it is a module, which
    cannot be called ([callable]).  Scale factors are natural numbers. *)
From Coq Require Import Reals String List Arith.
From Verif Require Import Py RSum Tensor KernelModel Fl AttachmentModel.
Import ListNotations.
Open Scope string_scope.
Open Scope R_scope.

(** The sum of 2 pi k n / N over the dimensions of a signal. *)
Fixpoint angle (sh k n : list nat) : R :=
  match sh, k, n with
  | N :: sh', a :: k', b :: n' => 2 * PI * INR a * INR b / INR N + angle sh' k' n'
  | _, _, _ => 0
  end.
(** Real and imaginary parts of sum over n of (x n + i y n) exp (- i angle k n). *)
Definition dft_re (sh : list nat) (x y : list nat -> R) (k : list nat) : R :=
  sum_idx sh (fun n => x n * cos (angle sh k n) + y n * sin (angle sh k n)).
Definition dft_im (sh : list nat) (x y : list nat -> R) (k : list nat) : R :=
  sum_idx sh (fun n => y n * cos (angle sh k n) - x n * sin (angle sh k n)).

(** torch.fft(t, signal_ndim, normalized) where t has signal_ndim dimensions and a last one
    of size 2 for the real and imaginary parts. *)
Definition torch_fft (t : tensor) (signal_ndim : nat) (normalized : bool) : res tensor :=
  let sh := firstn signal_ndim (shape t) in
  if (1 <=? signal_ndim)%nat && (signal_ndim <=? 3)%nat then
    let c := if normalized then / sqrt (INR (prod sh)) else 1 in
    Ok (mkT (shape t) (fun idx =>
      let k := firstn signal_ndim idx in
      let part := fun p n => get t (n ++ [p])%list in
      match skipn signal_ndim idx with
      | [0%nat] => c * dft_re sh (part 0%nat) (part 1%nat) k
      | _ => c * dft_im sh (part 0%nat) (part 1%nat) k
      end))
  else Err RuntimeError.

(** torch.stack([x, zeros_like(x)], dim=len(x.shape)) *)
Definition complexify (x : tensor) : tensor :=
  mkT (shape x ++ [2%nat]) (fun idx =>
    match nth (length (shape x)) idx 0%nat with 0%nat => get x (firstn (length (shape x)) idx) | _ => 0 end).

(** t[:, :, c] *)
Definition third (t : tensor) (c : nat) : res tensor :=
  match shape t with
  | a :: b :: n :: r =>
      if (c <? n)%nat then
        Ok (mkT (a :: b :: r) (fun idx => match idx with i :: j :: l => get t (i :: j :: c :: l) | _ => 0 end))
      else Err IndexError
  | _ => Err IndexError
  end.

(** __loss_fft, attachment_l2.py:39-44; kwargs may hold 'normalized' only. *)
Definition loss_fft (callable normalized : bool) (x y : tensor) : res R :=
  if callable then
    fx <- torch_fft (complexify x) (length (shape x)) normalized ;;
    fy <- torch_fft (complexify y) (length (shape y)) normalized ;;
    a <- third fx 0 ;; b <- third fy 0 ;;
    a' <- third fx 1 ;; b' <- third fy 1 ;;
    Ok (l2_loss a b + l2_loss a' b')
  else Err TypeError.

(** interpolate_image, sampling.py:180-186.  Exactly one of [size] and [scale_factor] must
    be given; there are as many sizes as dimensions, from one to three, and none is zero.  In the mode
    'nearest' entry i of a dimension resized from n to m is entry floor(i n / m); [Other]
    stands for the other modes. *)
Inductive resizing :=
| Nearest (size : option (list nat)) (scale_factor : option nat)
| Other (f : tensor -> res tensor).
Fixpoint sources (from to idx : list nat) : list nat :=
  match from, to, idx with
  | n :: from', m :: to', i :: idx' => (i * n / m)%nat :: sources from' to' idx'
  | _, _, _ => []
  end.
Definition resized (t : tensor) (size : list nat) : res tensor :=
  if negb (length size =? length (shape t))%nat then Err ValueError
  else if negb ((1 <=? length size)%nat && (length size <=? 3)%nat) then Err NotImplementedError
  else if existsb (Nat.eqb 0) size || existsb (Nat.eqb 0) (shape t) then Err RuntimeError
  else Ok (mkT size (fun idx => get t (sources (shape t) size idx))).
Definition interpolate_image (r : resizing) (t : tensor) : res tensor :=
  match r with
  | Other f => f t
  | Nearest (Some s) None => resized t s
  | Nearest None (Some k) => resized t (map (fun n => n * k)%nat (shape t))
  | Nearest _ _ => Err ValueError
  end.

(** __scale_function, 62-67: [None] is scale=False. *)
Definition scale_function (scale : option resizing) (x y : tensor) : res (tensor * tensor) :=
  match scale with
  | None => Ok (x, y)
  | Some r => a <- interpolate_image r x ;; b <- interpolate_image r y ;; Ok (a, b)
  end.

(** loss, 32-34, of all transforms; the constructor has accepted the name. *)
Definition image_loss (callable normalized : bool) (transform : string) (bandwidth : option R) (scale : option resizing) (x y : tensor) : res fl :=
  p <- scale_function scale x y ;;
  if transform =? "fft" then r <- loss_fft callable normalized (fst p) (snd p) ;; Ok (Fin r)
  else l2_call transform bandwidth (fst p) (snd p).
