(** Properties of the file functions (C63, C68) and of lists in dictionaries (C69). *)
From Coq Require Import Reals String Ascii List Arith Bool Lia.
From Verif Require Import Py RSum Tensor TensorFacts KernelModel FieldModel UtilModel FileModel MeshAreas AttachmentFacts.
Import ListNotations.
Open Scope R_scope.
Open Scope list_scope.

(** ** C63 *)

(** The characters of a string; names without slash. *)
Fixpoint has_char (c : ascii) (s : string) : Prop := match s with EmptyString => False | String d s' => c = d \/ has_char c s' end.
Lemma after_plain s cur : ~ has_char "/" s -> after_last s cur = cur.
Proof.
  revert cur. induction s as [|c s IH]; intros cur H; [reflexivity|]. cbn in *. destruct (Ascii.eqb_spec c "/"%char) as [->|N]; [tauto|]. apply IH. tauto.
Qed.
Lemma after_slash d name cur : ~ has_char "/" name -> after_last (d ++ String "/" name) cur = name.
Proof.
  intros H. revert cur. induction d as [|c d IH]; intros cur; cbn; [apply after_plain, H|apply IH].
Qed.
(** The name of a file does not depend on its directory. *)
Theorem C63_file_name : forall name, ~ has_char "/" name -> path_tail name = name /\ forall d, path_tail (d ++ String "/" name) = name.
Proof. intros name H. split; [apply after_plain, H|intros d; apply after_slash, H]. Qed.
Print Assumptions C63_file_name.

(** Every path has a file name without slash, alone or after a directory. *)
Lemma tail_cases s : ~ has_char "/" (path_tail s) /\ (path_tail s = s \/ exists d, s = (d ++ String "/" (path_tail s))%string).
Proof.
  unfold path_tail. assert (G : forall s cur, (~ has_char "/" s /\ after_last s cur = cur) \/ (~ has_char "/" (after_last s cur) /\ exists d, s = (d ++ String "/" (after_last s cur))%string)).
  { clear s. induction s as [|c s IH]; intros cur; [left; cbn; tauto|]. cbn [after_last]. destruct (Ascii.eqb_spec c "/"%char) as [->|N].
    - right. destruct (IH s) as [(H & E)|(H & d & E)]; [rewrite E; split; [exact H|exists ""%string; reflexivity]|]. split; [exact H|]. exists (String "/" d). cbn. f_equal. exact E.
    - destruct (IH cur) as [(H & E)|(H & d & E)]; [left; split; [cbn; intros [Q|Q]; [congruence|tauto]|exact E]|]. right. split; [exact H|]. exists (String c d). cbn. f_equal. exact E. }
  destruct (G s s) as [(H & E)|(H & d & E)]; [rewrite E; tauto|]. split; [exact H|]. right. exists d. exact E.
Qed.

(** Finding: the dispatch looks at the file name, not at its extension: files are accepted only
    if their whole name is one of the extensions; every file whose name does not start with
    a dot is rejected, by loading and by saving, and nothing is written. *)
Theorem C63_dispatch_refuted : forall mesh_extensions fs d name points container,
  (forall e, In e mesh_extensions -> exists e', e = String "." e') ->
  ~ has_char "/" name -> (forall n, name <> String "." n) ->
  load_from_file mesh_extensions fs (d ++ String "/" name) = FErr (Raise RuntimeError) /\
  load_from_file mesh_extensions fs name = FErr (Raise RuntimeError) /\
  save_to_file mesh_extensions fs (d ++ String "/" name) points container = (fs, FErr (Raise RuntimeError)).
Proof.
  intros ext fs d name points container X H N. destruct (C63_file_name name H) as (P1 & P2). unfold load_from_file, save_to_file. rewrite P1, P2.
  assert (E : existsb (String.eqb name) ext = false). { apply Bool.not_true_is_false. intros E. apply existsb_exists in E. destruct E as (e & I & E). apply String.eqb_eq in E. destruct (X e I) as (e' & ->). exact (N e' E). }
  assert (E1 : String.eqb name ".csv" = false) by (apply String.eqb_neq; apply N). assert (E2 : String.eqb name ".pickle" = false) by (apply String.eqb_neq; apply N). assert (E3 : String.eqb name ".pkl" = false) by (apply String.eqb_neq; apply N).
  rewrite E1, E2, E3, E. repeat split; reflexivity.
Qed.
Print Assumptions C63_dispatch_refuted.
(** The paths that are accepted. *)
Theorem C63_accepted_paths : forall mesh_extensions fs name,
  ((name = ".csv"%string \/ exists d, name = (d ++ "/.csv")%string) -> load_from_file mesh_extensions fs name = load_from_csv fs name) /\
  ((name = ".pickle"%string \/ name = ".pkl"%string \/ exists d, name = (d ++ "/.pickle")%string \/ name = (d ++ "/.pkl")%string) -> load_from_file mesh_extensions fs name = load_from_pickle fs name) /\
  (load_from_file mesh_extensions fs name <> FErr (Raise RuntimeError) -> exists e, (e = ".csv"%string \/ e = ".pickle"%string \/ e = ".pkl"%string \/ In e mesh_extensions) /\ (name = e \/ exists d, name = (d ++ String "/" e)%string)).
Proof.
  intros ext fs name. split; [|split].
  - intros [-> | (d & ->)]; [reflexivity|]. unfold load_from_file. change "/.csv"%string with (String "/" ".csv"). unfold path_tail. rewrite after_slash by (cbn; intuition discriminate). reflexivity.
  - intros [-> | [-> | (d & [-> | ->])]]; try reflexivity; unfold load_from_file, path_tail; [change "/.pickle"%string with (String "/" ".pickle")|change "/.pkl"%string with (String "/" ".pkl")]; rewrite after_slash by (cbn; intuition discriminate); reflexivity.
  - intros H. destruct (tail_cases name) as (_ & C). exists (path_tail name). split; [|destruct C as [C|C]; [left; symmetry; exact C|right; exact C]].
    unfold load_from_file in H. destruct (String.eqb (path_tail name) ".csv") eqn:E1; [left; apply String.eqb_eq, E1|]. destruct (String.eqb (path_tail name) ".pickle") eqn:E2; [right; left; apply String.eqb_eq, E2|]. destruct (String.eqb (path_tail name) ".pkl") eqn:E3; [right; right; left; apply String.eqb_eq, E3|]. cbn [orb] in H.
    destruct (existsb (String.eqb (path_tail name)) ext) eqn:E4; [|congruence]. apply existsb_exists in E4. destruct E4 as (e & I & E). apply String.eqb_eq in E. rewrite E. tauto.
Qed.
Print Assumptions C63_accepted_paths.
(** Finding: meshes are loaded as arrays, not as deformables; DeformableMesh never loads. *)
Theorem C63_meshes_refuted : forall fs name,
  (forall l, load_from_mesh fs name = FOk l -> exists t, l = Array t) /\ (forall cell_dict r, mesh_load_from_file cell_dict fs name <> FOk r).
Proof.
  intros fs name. split.
  - intros l. unfold load_from_mesh. destruct (fs name) as [[]|]; try discriminate. destruct (tensor_of points); cbn; [|discriminate]. intros H. injection H as <-. eexists. reflexivity.
  - intros cell_dict r. unfold mesh_load_from_file. destruct (fs name) as [[]|]; try discriminate. destruct (tensor_of points); cbn; [|discriminate]. destruct cell_dict; discriminate.
Qed.
Print Assumptions C63_meshes_refuted.
Example C63_case : ~ has_char "/" "points.csv" /\ (forall n, "points.csv"%string <> String "." n) /\ load_from_file [".vtk"%string] (fun _ => Some (CText [[1; 2]; [3; 4]])) "data/points.csv" = FErr (Raise RuntimeError).
Proof. split; [cbn; intuition discriminate|]. split; [discriminate|reflexivity]. Qed.

(** ** C68 *)
Lemma rows_length p n d : shape p = [n; d] -> length (rows_of p) = n.
Proof. intros S. unfold rows_of, nrows. rewrite S. rewrite map_length, seq_length. reflexivity. Qed.
Lemma rows_nth p n d i : shape p = [n; d] -> (i < n)%nat -> nth i (rows_of p) [] = map (fun c => p @2 i c) (seq 0 d).
Proof.
  intros S L. unfold rows_of, nrows, ncols. rewrite S. change (tnth [n; d] 0) with n. change (tnth [n; d] 1) with d. rewrite (nth_map_seq (fun i => map (fun c => p @2 i c) (seq 0 d)) n i []) by exact L. reflexivity.
Qed.
Lemma tensor_rows p n d : shape p = [n; d] -> (0 < n)%nat -> exists q, tensor_of (rows_of p) = Ok q /\ shape q = [n; d] /\ teq q p.
Proof.
  intros S H. assert (W : width_of (rows_of p) = d). { pose proof (rows_nth p n d 0 S H) as R. pose proof (rows_length p n d S) as L. destruct (rows_of p) as [|r l]; [cbn in L; lia|]. cbn in R |- *. rewrite R, map_length, seq_length. reflexivity. }
  assert (U : uniform (rows_of p) = true).
  { assert (A : forall r, In r (rows_of p) -> length r = d). { intros r I. apply (In_nth _ _ []) in I. destruct I as (i & L & <-). rewrite (rows_length p n d S) in L. rewrite (rows_nth p n d i S L), map_length, seq_length. reflexivity. }
    destruct (rows_of p) as [|r l]; [reflexivity|]. cbn. apply forallb_forall. intros x I. apply Nat.eqb_eq. rewrite (A x), (A r); [reflexivity|left; reflexivity|right; exact I]. }
  unfold tensor_of. rewrite U. pose proof (rows_length p n d S) as L. destruct (rows_of p) as [|r l] eqn:E; [cbn in L; lia|]. rewrite <- E in *. rewrite L, W. eexists. split; [reflexivity|]. split; [reflexivity|]. split; [cbn; symmetry; exact S|]. cbn [shape of_rows mk2].
  intros [|i [|j [|? ?]]] V; cbn in V; try tauto. cbn [get of_rows mk2]. rewrite (rows_nth p n d i S) by tauto. rewrite (nth_map_seq (fun c => p @2 i c) d j 0) by tauto. reflexivity.
Qed.

(** Points saved in a pickle, as an array or in a dictionary, are loaded again; other files
    are not touched. *)
Theorem C68_pickle : forall fs name p n d container, shape p = [n; d] -> (0 < n)%nat -> container = "array"%string \/ container = "dict"%string ->
  exists fs' q, save_to_pickle fs name p container = (fs', FOk tt) /\ load_from_pickle fs' name = FOk (Deformable q) /\ teq q p /\ forall other, other <> name -> fs' other = fs other.
Proof.
  intros fs name p n d container S H C. destruct (tensor_rows p n d S H) as (q & E & Sq & T). unfold save_to_pickle.
  destruct C as [-> | ->]; cbn [String.eqb Ascii.eqb Bool.eqb]; (do 2 eexists; split; [reflexivity|]); unfold load_from_pickle, write; rewrite String.eqb_refl; cbn [dict_get String.eqb Ascii.eqb Bool.eqb]; rewrite E; cbn [bind of_res]; unfold deformable_points; rewrite Sq; cbn [of_res];
  (split; [reflexivity|]); (split; [exact T|]); intros other N; apply String.eqb_neq in N; rewrite N; reflexivity.
Qed.
Print Assumptions C68_pickle.
(** Points saved as text are loaded again if there are at least two points of at least two
    coordinates. *)
Theorem C68_csv : forall fs name p n d, shape p = [n; d] -> (1 < n)%nat -> d <> 1%nat ->
  exists fs' q, save_to_csv fs name p = (fs', FOk tt) /\ load_from_csv fs' name = FOk (Deformable q) /\ teq q p /\ forall other, other <> name -> fs' other = fs other.
Proof.
  intros fs name p n d S Hn Hd. destruct (tensor_rows p n d S ltac:(lia)) as (q & E & Sq & T). unfold save_to_csv. do 2 eexists. split; [reflexivity|]. unfold load_from_csv, write. rewrite String.eqb_refl. unfold loadtxt. rewrite E. cbn [bind]. rewrite Sq.
  assert (Q : squeezed [n; d] = [n; d]). { unfold squeezed. cbn [filter]. replace (Nat.eqb n 1) with false by (symmetry; apply Nat.eqb_neq; lia). replace (Nat.eqb d 1) with false by (symmetry; apply Nat.eqb_neq; lia). reflexivity. } rewrite Q. unfold deformable_points. cbn [shape reshape bind of_res]. split; [reflexivity|]. split.
  - eapply teq_trans; [|exact T]. split; [cbn; symmetry; exact Sq|]. cbn [shape reshape]. intros idx V. rewrite (get_reshape [n; d] q idx idx); [reflexivity|rewrite Sq; reflexivity|rewrite Sq; exact V].
  - intros other N. apply String.eqb_neq in N. rewrite N. reflexivity.
Qed.
Print Assumptions C68_csv.
(** Finding: a single point, or points of one coordinate, cannot be read back from text; no
    format can hold an empty set of points; a wrong container name empties the file. *)
Theorem C68_single_csv_refuted : forall fs name p n d, shape p = [n; d] -> (0 < n)%nat -> n = 1%nat \/ d = 1%nat ->
  exists fs', save_to_csv fs name p = (fs', FOk tt) /\ load_from_csv fs' name = FErr (Raise IndexError).
Proof.
  intros fs name p n d S Hn C. destruct (tensor_rows p n d S Hn) as (q & E & Sq & T). unfold save_to_csv. eexists. split; [reflexivity|]. unfold load_from_csv, write. rewrite String.eqb_refl. unfold loadtxt. rewrite E. cbn [bind]. rewrite Sq. unfold deformable_points. cbn [shape reshape]. unfold squeezed. cbn [filter].
  destruct C as [-> | ->]; cbn [Nat.eqb negb]; [destruct (negb (Nat.eqb d 1))|destruct (negb (Nat.eqb n 1))]; reflexivity.
Qed.
Print Assumptions C68_single_csv_refuted.
Theorem C68_no_points_refuted : forall fs name p d container, shape p = [0%nat; d] -> container = "array"%string \/ container = "dict"%string ->
  load_from_pickle (fst (save_to_pickle fs name p container)) name = FErr (Raise IndexError) /\ load_from_csv (fst (save_to_csv fs name p)) name = FErr (Raise IndexError).
Proof.
  intros fs name p d container S C. assert (R : rows_of p = []) by (unfold rows_of, nrows; rewrite S; reflexivity). split.
  - unfold save_to_pickle. destruct C as [-> | ->]; cbn [String.eqb Ascii.eqb Bool.eqb fst]; unfold load_from_pickle, write; rewrite String.eqb_refl; rewrite R; reflexivity.
  - unfold save_to_csv, load_from_csv, write. cbn [fst]. rewrite String.eqb_refl, R. reflexivity.
Qed.
Print Assumptions C68_no_points_refuted.
Theorem C68_wrong_container_refuted : forall fs name p container, container <> "array"%string -> container <> "dict"%string ->
  exists fs', save_to_pickle fs name p container = (fs', FErr (Raise RuntimeError)) /\ load_from_pickle fs' name = FErr EOFError.
Proof.
  intros fs name p container N1 N2. unfold save_to_pickle. apply String.eqb_neq in N1, N2. rewrite N1, N2. eexists. split; [reflexivity|]. unfold load_from_pickle, write. rewrite String.eqb_refl. reflexivity.
Qed.
Print Assumptions C68_wrong_container_refuted.
(** Saving a mesh writes its points and its triangles. *)
Theorem C68_mesh : forall fs name p n d triangles, shape p = [n; d] -> (0 < n)%nat ->
  exists fs' q, mesh_save_to_file fs name p triangles = (fs', FOk tt) /\ load_from_mesh fs' name = FOk (Array q) /\ teq q p /\
    (exists rows, fs' name = Some (CMesh rows triangles)) /\ forall other, other <> name -> fs' other = fs other.
Proof.
  intros fs name p n d triangles S H. destruct (tensor_rows p n d S H) as (q & E & Sq & T). unfold mesh_save_to_file. do 2 eexists. split; [reflexivity|]. unfold load_from_mesh, write. rewrite String.eqb_refl, E. cbn [bind of_res].
  split; [reflexivity|]. split; [exact T|]. split; [eexists; reflexivity|]. intros other N. apply String.eqb_neq in N. rewrite N. reflexivity.
Qed.
Print Assumptions C68_mesh.
(** Points saved under a name that meshio knows, and loaded again: the same points, as an
    array. *)
Theorem C68_points_as_mesh : forall mesh_extensions fs d e p n k container, shape p = [n; k] -> (0 < n)%nat ->
  In e mesh_extensions -> ~ has_char "/" e -> e <> ".csv"%string -> e <> ".pickle"%string -> e <> ".pkl"%string ->
  exists fs' q, save_to_file mesh_extensions fs (d ++ String "/" e) p container = (fs', FOk tt) /\
    load_from_file mesh_extensions fs' (d ++ String "/" e) = FOk (Array q) /\ teq q p /\
    forall other, other <> (d ++ String "/" e)%string -> fs' other = fs other.
Proof.
  intros ext fs d e p n k container S H I NS N1 N2 N3. destruct (tensor_rows p n k S H) as (q & E & Sq & T). destruct (C63_file_name e NS) as (_ & P).
  unfold save_to_file, load_from_file. rewrite (P d). apply String.eqb_neq in N1, N2, N3. rewrite N1, N2, N3. cbn [orb].
  replace (existsb (String.eqb e) ext) with true by (symmetry; apply existsb_exists; exists e; split; [exact I|apply String.eqb_refl]).
  unfold save_to_mesh. do 2 eexists. split; [reflexivity|]. unfold load_from_mesh, write. rewrite String.eqb_refl, E. cbn [bind of_res].
  split; [reflexivity|]. split; [exact T|]. intros other N. apply String.eqb_neq in N. rewrite N. reflexivity.
Qed.
Print Assumptions C68_points_as_mesh.
Example C68_points_as_mesh_case : In ".vtk"%string [".obj"; ".vtk"]%string /\ ~ has_char "/" ".vtk" /\ ".vtk"%string <> ".csv"%string /\ ".vtk"%string <> ".pickle"%string /\ ".vtk"%string <> ".pkl"%string.
Proof. cbn. intuition discriminate. Qed.
(** Errors of the loaders. *)
Theorem C68_load_errors : forall fs name,
  (fs name = None -> load_from_csv fs name = FErr FileNotFoundError /\ load_from_pickle fs name = FErr FileNotFoundError /\ load_from_mesh fs name = FErr FileNotFoundError) /\
  (forall entries, fs name = Some (CPickle (PDict entries)) -> ~ In "points"%string (map fst entries) -> load_from_pickle fs name = FErr (Raise KeyError)) /\
  (fs name = Some (CPickle POther) -> load_from_pickle fs name = FErr (Raise RuntimeError)).
Proof.
  intros fs name. split; [|split].
  - intros E. unfold load_from_csv, load_from_pickle, load_from_mesh. rewrite E. repeat split.
  - intros entries E N. unfold load_from_pickle. rewrite E. replace (dict_get _ _ _) with (@None (list (list R))); [reflexivity|]. clear E. induction entries as [|(k, v) l IH]; [reflexivity|]. cbn [dict_get]. cbn [map fst] in N. destruct (String.eqb_spec "points" k) as [E|D]; [exfalso; apply N; left; symmetry; exact E|]. apply IH. intros I. apply N. right. exact I.
  - intros E. unfold load_from_pickle. rewrite E. reflexivity.
Qed.
Print Assumptions C68_load_errors.
Example C68_case : exists p, shape p = [2; 2]%nat /\ p @2 (0%nat) (1%nat) = 5 /\ exists fs' q, save_to_csv (fun _ => None) "a/.csv" p = (fs', FOk tt) /\ load_from_file [] fs' "a/.csv" = FOk (Deformable q) /\ teq q p.
Proof.
  exists (of_rows 2 2 [[1; 5]; [0; 2]]). split; [reflexivity|]. split; [reflexivity|]. destruct (C68_csv (fun _ => None) "a/.csv" (of_rows 2 2 [[1; 5]; [0; 2]]) 2 2 eq_refl ltac:(lia) ltac:(lia)) as (fs' & q & E & L & T & _). exists fs', q. split; [exact E|]. split; [exact L|exact T].
Qed.

(** ** C69 *)
Section Dict.
Context {K V : Type} (eqb : K -> K -> bool) (eqb_spec : forall a b, reflect (a = b) (eqb a b)).
Lemma get_set k v (d : list (K * V)) k' : dict_get eqb k' (dict_set eqb k v d) = if eqb k' k then Some v else dict_get eqb k' d.
Proof.
  induction d as [|(a, b) d IH]; cbn [dict_set dict_get]; [reflexivity|]. destruct (eqb_spec k a) as [->|N].
  - cbn [dict_get]. destruct (eqb k' a); reflexivity.
  - cbn [dict_get]. rewrite IH. destruct (eqb_spec k' a) as [->|N']; [|reflexivity]. destruct (eqb_spec a k) as [->|_]; [congruence|reflexivity].
Qed.
End Dict.
(** Each value is appended to the list of its key, which is created when it is missing; the
    other lists are not changed. *)
Theorem C69_append : forall (K V : Type) (eqb : K -> K -> bool), (forall a b, reflect (a = b) (eqb a b)) ->
  forall (base : list (K * list V)) (d : list (K * V)), NoDup (map fst d) -> forall k,
  dict_get eqb k (append_in_dict_of_list eqb base d) =
    match dict_get eqb k d with
    | None => dict_get eqb k base
    | Some v => Some (match dict_get eqb k base with None => [] | Some l => l end ++ [v])
    end.
Proof.
  intros K V eqb sp base d. revert base. induction d as [|(a, v) d IH]; intros base N k; [reflexivity|]. cbn [map fst] in N. inversion N as [|? ? Na Nd]; subst. unfold append_in_dict_of_list in *. cbn [fold_left fst snd]. rewrite IH by exact Nd. cbn [dict_get].
  assert (G : forall k', dict_get eqb k' match dict_get eqb a base with None => dict_set eqb a [v] base | Some l => dict_set eqb a (l ++ [v]) base end = if eqb k' a then Some (match dict_get eqb a base with None => [] | Some l => l end ++ [v]) else dict_get eqb k' base).
  { intros k'. destruct (dict_get eqb a base); rewrite (get_set eqb sp); reflexivity. }
  rewrite G. destruct (sp k a) as [->|Nk]; [|reflexivity].
  assert (E : dict_get eqb a d = None). { clear - sp Na. induction d as [|(b, w) d IH]; [reflexivity|]. cbn [dict_get map fst] in *. destruct (sp a b) as [->|_]; [exfalso; apply Na; left; reflexivity|]. apply IH. intros I. apply Na. right. exact I. }
  rewrite E. reflexivity.
Qed.
Print Assumptions C69_append.
(** The keys keep their order, new ones come last. *)
Theorem C69_keys : forall (K V : Type) (eqb : K -> K -> bool), (forall a b, reflect (a = b) (eqb a b)) ->
  forall (base : list (K * list V)) (d : list (K * V)), exists new, map fst (append_in_dict_of_list eqb base d) = map fst base ++ new /\ forall k, In k new -> In k (map fst d) /\ ~ In k (map fst base).
Proof.
  intros K V eqb sp base d. revert base. induction d as [|(a, v) d IH]; intros base; [exists []; split; [cbn; rewrite app_nil_r; reflexivity|intros k []]|]. unfold append_in_dict_of_list in *. cbn [fold_left fst snd].
  assert (S : forall (x : list V) b, In a (map fst b) -> map fst (dict_set eqb a x b) = map fst b).
  { intros x b. induction b as [|(c, w) b IHb]; [intros []|]. cbn [map fst dict_set]. destruct (sp a c) as [->|N]; [reflexivity|]. intros [E|I]; [congruence|]. cbn [map fst]. rewrite IHb by exact I. reflexivity. }
  assert (S' : forall (x : list V) b, ~ In a (map fst b) -> map fst (dict_set eqb a x b) = map fst b ++ [a]).
  { intros x b. induction b as [|(c, w) b IHb]; [reflexivity|]. cbn [map fst dict_set]. intros N. destruct (sp a c) as [->|N']; [exfalso; apply N; left; reflexivity|]. cbn [map fst app]. rewrite IHb by (intros I; apply N; right; exact I). reflexivity. }
  assert (G : forall b : list (K * list V), (dict_get eqb a b = None <-> ~ In a (map fst b))).
  { induction b as [|(c, w) b IHb]; [cbn; tauto|]. cbn [dict_get map fst]. destruct (sp a c) as [->|N]; [split; [discriminate|intros Q; exfalso; apply Q; left; reflexivity]|]. rewrite IHb. cbn. split; [intros Q [E|I]; [congruence|tauto]|tauto]. }
  destruct (dict_get eqb a base) as [l|] eqn:E.
  - assert (I : In a (map fst base)). { destruct (in_dec (fun x y => match sp x y with ReflectT _ e => left e | ReflectF _ n => right n end) a (map fst base)) as [I|N]; [exact I|]. apply G in N. congruence. }
    destruct (IH (dict_set eqb a (l ++ [v]) base)) as (new & E' & H). rewrite S in E', H by exact I. exists new. split; [exact E'|]. intros k Ik. apply H in Ik. cbn [map fst]. split; [right; tauto|tauto].
  - apply G in E. destruct (IH (dict_set eqb a [v] base)) as (new & E' & H). rewrite S' in E', H by exact E. exists (a :: new). split; [rewrite E', <- app_assoc; reflexivity|]. intros k [<-|Ik]; [split; [left; reflexivity|exact E]|]. apply H in Ik. rewrite in_app_iff in Ik. cbn [map fst]. split; [right; tauto|tauto].
Qed.
Print Assumptions C69_keys.
Example C69_case : append_in_dict_of_list Nat.eqb [(1, [5])]%nat [(1, 6); (2, 7)]%nat = [(1, [5; 6]); (2, [7])]%nat /\ NoDup (map fst [(1, 6); (2, 7)]%nat).
Proof. split; [reflexivity|]. repeat constructor; cbn; intuition discriminate. Qed.
