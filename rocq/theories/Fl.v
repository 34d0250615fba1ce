(** Cost values: real numbers (rounding idealised) together with the special values
    of IEEE arithmetic, with the comparisons and operations of Python floats.  The sign
    of zero is not modelled. *)
From Coq Require Import Reals Lra Bool.
Open Scope R_scope.

Inductive fl := Fin (r : R) | PInf | NInf | NaN.

Definition isnan (a : fl) : bool := match a with NaN => true | _ => false end.
Definition isfinite (a : fl) : bool := match a with Fin _ => true | _ => false end.

Definition Rltb (a b : R) : bool := if Rlt_dec a b then true else false.
Definition Rleb (a b : R) : bool := if Rle_dec a b then true else false.
Definition Reqb (a b : R) : bool := if Req_EM_T a b then true else false.

(** [a < b], [a == b], [a <= b]: false as soon as one is NaN *)
Definition flt (a b : fl) : bool :=
  match a, b with
  | NaN, _ | _, NaN => false
  | Fin x, Fin y => Rltb x y
  | PInf, _ => false
  | _, PInf => true
  | _, NInf => false
  | NInf, Fin _ => true
  end.
Definition feq (a b : fl) : bool :=
  match a, b with
  | Fin x, Fin y => Reqb x y
  | PInf, PInf | NInf, NInf => true
  | _, _ => false
  end.
Definition fle (a b : fl) : bool := (flt a b || feq a b)%bool.

Definition fneg (a : fl) : fl :=
  match a with Fin x => Fin (- x) | PInf => NInf | NInf => PInf | NaN => NaN end.
Definition fadd (a b : fl) : fl :=
  match a, b with
  | NaN, _ | _, NaN => NaN
  | PInf, NInf | NInf, PInf => NaN
  | PInf, _ | _, PInf => PInf
  | NInf, _ | _, NInf => NInf
  | Fin x, Fin y => Fin (x + y)
  end.
Definition fsub (a b : fl) : fl := fadd a (fneg b).

(** [a / b] for a divisor which is not zero *)
Definition fdiv (a b : fl) : fl :=
  match a, b with
  | NaN, _ | _, NaN => NaN
  | Fin x, Fin y => Fin (x / y)
  | Fin _, _ => Fin 0
  | PInf, Fin y => if Rltb y 0 then NInf else PInf
  | NInf, Fin y => if Rltb y 0 then PInf else NInf
  | _, _ => NaN
  end.

(** Python's [max(a, b)] (keeps the first unless the second is greater) *)
Definition fmax (a b : fl) : fl := if flt a b then b else a.

Lemma Rltb_true a b : Rltb a b = true <-> a < b.
Proof. unfold Rltb. destruct (Rlt_dec a b); split; intros; congruence || lra. Qed.
Lemma Rltb_false a b : Rltb a b = false <-> b <= a.
Proof. unfold Rltb. destruct (Rlt_dec a b); split; intros; try congruence; lra. Qed.
Lemma Rleb_true a b : Rleb a b = true <-> a <= b.
Proof. unfold Rleb. destruct (Rle_dec a b); split; intros; congruence || lra. Qed.
Lemma Rleb_false a b : Rleb a b = false <-> b < a.
Proof. unfold Rleb. destruct (Rle_dec a b); split; intros; try congruence; lra. Qed.
Lemma Reqb_true a b : Reqb a b = true <-> a = b.
Proof. unfold Reqb. destruct (Req_EM_T a b); split; intros; congruence. Qed.
Lemma feq_true a b : feq a b = true <-> a = b /\ a <> NaN.
Proof.
  destruct a, b; cbn; try (split; [discriminate|intros [H1 H2]; congruence]);
    try (split; [intros _; split; [reflexivity|discriminate]|reflexivity]).
  rewrite Reqb_true. split; [intros ->; split; [reflexivity|discriminate]|intros [H _]; congruence].
Qed.
Lemma fle_fin x y : fle (Fin x) (Fin y) = true <-> x <= y.
Proof.
  unfold fle. cbn. rewrite orb_true_iff, Rltb_true, Reqb_true. split; [intros [H|H]; lra|].
  intros H. destruct (Rle_lt_or_eq_dec _ _ H); auto.
Qed.
