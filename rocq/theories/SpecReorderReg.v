(** Specification for C115: the moments of a registration whose objects and modules are listed
    in another order. *)
From Coq Require Import Reals List Arith Permutation.
From Verif Require Import Py Tensor GeometryModel ModuleModel ShootingModel RegistrationModel SpecModule SpecShooting SpecRegistration SpecSmooth SpecOrder SpecShuffle.
Import ListNotations.
Open Scope list_scope.

(** Tensors are numbered member by member: [ranges 0 [2; 1]] = [[0; 1]; [2]]. *)
Fixpoint ranges (first : nat) (sizes : list nat) : list (list nat) :=
  match sizes with [] => [] | k :: r => seq first k :: ranges (first + k) r end.
(** The order of the tensors of the moments when the objects are listed in the order p and the
    modules in the order pm: each object or module keeps its own tensors. *)
Definition moment_order (p pm : list nat) (defs : list deformable) (mods : list dmod) : list nat :=
  concat (pick (p ++ map (fun i => (length defs + i)%nat) pm) (ranges 0 (map (fun g => length (g_cotan g)) (map df_man defs ++ map mod_manifold mods)))).

(** A problem and the same problem with its objects (their attachments and targets) listed in
    the order p and its modules in the order pm. *)
Record relisted_problem (d : nat) (p pm : list nat) (defs : list deformable) (mods : list dmod) (att : list attachment) (targets : list geom)
    (defs' : list deformable) (mods' : list dmod) (att' : list attachment) (targets' : list geom) : Prop := {
  rl_places : Permutation p (seq 0 (length defs)) /\ Permutation pm (seq 0 (length mods));
  rl_lengths : length att = length defs /\ length targets = length defs;
  rl_lists : defs' = pick p defs /\ mods' = pick pm mods /\ att' = pick p att /\ targets' = pick p targets;
  rl_reads : Forall (fun z => reads_values (fst (fst z)) (snd (fst z)) (snd z)) (combine (combine defs att) targets);
  rl_wf : wf_mod d (start defs mods) /\ wf_mod d (start defs' mods');
  rl_smooth : locals_smooth d (start defs mods) /\ locals_smooth d (start defs' mods');
  rl_shootable : shootable (start defs mods) /\ shootable (start defs' mods')
}.
