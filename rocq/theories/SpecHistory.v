(** Specification vocabulary for histories of a deformation module (C23) and for
    the choice of back end (C11). *)
From Coq Require Import Reals List.
From Verif Require Import Py RSum Tensor KernelModel FieldModel GeometryModel ModuleModel.
Import ListNotations.
Open Scope R_scope.

(** What a caller does to a module: give controls, write in its manifold (fill_gd,
    fill, move_by, ...; the value is the manifold afterwards), or ask for geodesic
    controls. *)
Inductive mop := OpFill (c : ctrl) | OpManifold (g : gman) | OpGeodesic (man : gman).

Definition run_op (sv : solver) (b0 : backend) (m : dmod) (o : mop) : res dmod :=
  match o with
  | OpFill c => fill_controls sv m c
  | OpManifold g => set_manifold m g
  | OpGeodesic man => compute_geodesic_control sv b0 m man
  end.

Definition run_ops (sv : solver) (b0 : backend) (m : dmod) (ops : list mop) : res dmod :=
  fold_left (fun r o => bind r (fun m => run_op sv b0 m o)) ops (Ok m).

(** A module that was just built: nothing was computed from controls yet. *)
Fixpoint fresh (m : dmod) : Prop :=
  match m with
  | MImp1 _ _ _ _ _ _ _ _ _ _ _ _ ca => ca = None
  | MDivFree _ _ _ _ _ _ _ _ _ _ l | MArap _ _ _ _ _ _ _ _ _ _ l => l = None
  | MComp ms => fold_right (fun m acc => fresh m /\ acc) True ms
  | _ => True
  end.

(** The same module computing with another back end, where there is a choice. *)
Fixpoint mod_backend (b : backend) (m : dmod) : dmod :=
  match m with
  | MTrans _ sg dim nb gd ct h => MTrans b sg dim nb gd ct h
  | MImp0 _ sg nu co dim nb gd ct h => MImp0 b sg nu co dim nb gd ct h
  | MImp1 _ sg nu co C dim nb gd0 gd1 c0 c1 h ca => MImp1 b sg nu co C dim nb gd0 gd1 c0 c1 h ca
  | MComp ms => MComp (map (mod_backend b) ms)
  | _ => m
  end.
