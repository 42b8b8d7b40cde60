(** Theorems about the array utilities.  Each is closed by a lemma proved elsewhere. *)
From Coq Require Import Reals Lra Lia ZArith List Bool Arith Permutation Sorted Ascii String.
From Verif Require Import Base BasicsModel BasicsSpec BasicsProofs.
Import ListNotations.
Local Open Scope nat_scope.

(* ---------- C22: groups ---------- *)

(** Whatever way the sort orders ties, the unique IDs are the sorted distinct IDs, and sums, counts and
    means are those of the rows with each ID. *)
Theorem C22_group_statistics ids p x : is_argsort ids p ->
  sorted_distinct ids (group_unique ids p) /\
  group_count ids p = List.length (group_unique ids p) /\
  group_sum ids p x = map (fun t => sum_rows x (rows_of ids t)) (group_unique ids p) /\
  group_counts ids p = map (fun t => List.length (rows_of ids t)) (group_unique ids p) /\
  group_mean ids p x
  = map (fun t => (sum_rows x (rows_of ids t) / INR (List.length (rows_of ids t)))%R) (group_unique ids p).
Proof.
  intros H. split; [exact (group_unique_spec ids p H)|]. split; [exact (group_count_length ids p)|].
  split; [exact (group_sum_spec ids p H x)|].
  split; [exact (group_counts_spec ids p H)|exact (group_mean_spec ids p H x)].
Qed.
Print Assumptions C22_group_statistics.

(** Expansion puts the statistic of a group on precisely the rows with its ID. *)
Theorem C22_expand ids p (f : Z -> R) j : is_argsort ids p -> j < List.length ids ->
  group_code ids p j < group_count ids p /\
  nth (group_code ids p j) (group_unique ids p) 0%Z = nth j ids 0%Z /\
  group_expand ids p (map f (group_unique ids p)) j = f (nth j ids 0%Z).
Proof.
  intros H Hj. destruct (group_code_spec ids p H j Hj) as [A B].
  split; [exact A|]. split; [exact B|exact (group_expand_spec ids p H f j Hj)].
Qed.
Print Assumptions C22_expand.

(** Market indices: one entry per distinct ID in sorted order, with the increasing list of its rows; the
    rows of all entries partition the data. *)
Theorem C22_get_indices ids p : is_stable_argsort ids p ->
  exists u, sorted_distinct ids u /\
    get_indices ids p = map (fun t => (t, rows_of ids t)) u /\
    Permutation (flat_map snd (get_indices ids p)) (seq 0 (List.length ids)).
Proof.
  intros H. exists (group_unique ids p).
  assert (U := group_unique_spec ids p (stable_is_argsort ids p H)).
  split; [exact U|]. split; [exact (get_indices_spec ids p H)|].
  rewrite (get_indices_spec ids p H). rewrite flat_map_concat_map, map_map. cbn [snd].
  rewrite <- flat_map_concat_map. exact (rows_partition ids _ U).
Qed.
Print Assumptions C22_get_indices.

Example C22_applies : is_stable_argsort [5; 2; 5; 1; 2]%Z [3; 1; 4; 0; 2] /\
  get_indices [5; 2; 5; 1; 2]%Z [3; 1; 4; 0; 2] = [(1%Z, [3]); (2%Z, [1; 4]); (5%Z, [0; 2])] /\
  (forall ids, is_stable_argsort ids (stable_argsort ids)).
Proof.
  split; [|split; [reflexivity|exact stable_argsort_correct]].
  exact (stable_argsort_correct [5; 2; 5; 1; 2]%Z).
Qed.
(** An argsort that is not stable is also covered by the theorems about groups. *)
Example C22_applies_unstable : is_argsort [5; 2; 5; 1; 2]%Z [3; 4; 1; 2; 0].
Proof.
  split.
  - apply NoDup_Permutation; [|apply seq_NoDup|].
    + repeat (constructor; [simpl; lia|]). constructor.
    + intros x. simpl. lia.
  - repeat (constructor; [|repeat constructor; simpl; lia]). constructor.
Qed.

(* ---------- C56: reading and updating fields ---------- *)

Section Fields.
  Context {V : Type}.

  (** A field with the exact name is returned, as None when it is empty. *)
  Theorem C56_exact_name (m : @mapping V) key v : NoDup (map fst m) -> In (key, v) m ->
    extract_matrix m key = Some (match v with [] => None | _ => Some v end).
  Proof. intros ND H. exact (extract_matrix_exact m key v (lookup_nodup m key v ND H)). Qed.

  (** Without it, name0, name1, ... up to the first missing index are stacked, for any number of fields,
      and None is returned when that leaves no columns.  The loop always ends. *)
  Theorem C56_stacked (m : @mapping V) key : ~ In key (map fst m) ->
    exists K parts,
      ~ In (key ++ decimal K)%list (map fst m) /\
      List.length parts = K /\
      (forall i, i < K -> In ((key ++ decimal i)%list, nth i parts []) m) /\
      extract_matrix m key = Some (match List.concat parts with [] => None | c => Some c end).
  Proof.
    intros H. apply lookup_none in H. destruct (extract_matrix_stack m key H) as [K [A [B C]]].
    exists K, (map (fun i => columns_at m (key ++ decimal i)%list) (seq 0 K)).
    split; [apply lookup_none; exact B|]. split; [rewrite map_length; apply seq_length|].
    split; [|exact C]. intros i Hi.
    rewrite (nth_indep _ [] (columns_at m (key ++ decimal 0)%list)) by (rewrite map_length, seq_length; exact Hi).
    rewrite (map_nth (fun i => columns_at m (key ++ decimal i)%list)), seq_nth by exact Hi. rewrite Nat.add_0_l.
    apply lookup_in. unfold columns_at. specialize (A i Hi).
    destruct (lookup m (key ++ decimal i)%list); [reflexivity|contradiction].
  Qed.

  (** Updating by name changes exactly the named fields (dropping those updated with None), keeps the
      titles and matrices of all others, and adds the new ones. *)
  Theorem C56_update (fields : list (@field V)) update :
    NoDup (map field_name fields) ->
    NoDup (map (fun kv => snd (fst kv)) update) -> (forall kv, In kv update -> fst (fst kv) = None) ->
    exists result, update_matrices fields update = Some result /\
      (forall n v, In ((None, n), v) update ->
         read_field result n = Some (match v with None => [] | Some a => a end)) /\
      (forall f, In f fields -> ~ In (field_name f) (map (fun kv => snd (fst kv)) update) ->
         In f result /\ read_field result (field_name f) = Some (field_matrix f)) /\
      (forall n, In n (map field_name result) <->
         In n (map (fun kv => snd (fst kv)) update) \/ In n (map field_name fields)).
  Proof.
    intros N1 N2 P. destruct (update_result fields update N1 N2 P) as [r [A [B [C [D E]]]]].
    exists r. split; [exact A|]. split; [|split; [|exact E]].
    - intros n v H. exact (read_field_in r _ B (C n v H)).
    - intros f Hf Hn. split; [exact (D f Hf Hn)|exact (read_field_in r f B (D f Hf Hn))].
  Qed.

  (** An update keyed by (title, name) of an existing field never replaces it: it is rejected. *)
  Theorem C56_titled_update_rejected (fields : list (@field V)) t n v f :
    In f fields -> field_name f = n -> update_matrices fields [((Some t, n), v)] = None.
  Proof. exact (update_titled fields t n v f). Qed.
End Fields.
Print Assumptions C56_exact_name.
Print Assumptions C56_stacked.
Print Assumptions C56_update.
Print Assumptions C56_titled_update_rejected.

Definition nm (s : string) : name := list_ascii_of_string s.

(** "z" is read from z0 and z1, not from z3; z11 is not reached either. *)
Example C56_applies :
  let m := [(nm "z1", [[2]; [3]]); (nm "z0", [[1]]); (nm "z3", [[4]]); (nm "z11", [[5]])] in
  ~ In (nm "z") (map fst m) /\ extract_matrix m (nm "z") = Some (Some [[1]; [2]; [3]]) /\
  extract_matrix m (nm "z1") = Some (Some [[2]; [3]]).
Proof. split; [simpl; intuition discriminate|]. split; reflexivity. Qed.
Example C56_update_applies :
  let fields := [{| field_name := nm "X1"; field_title := Some 0; field_matrix := [[1]] |};
                 {| field_name := nm "ZD"; field_title := None; field_matrix := [[2]] |}] in
  NoDup (map (@field_name nat) fields) /\
  update_matrices fields [((None, nm "ZD"), Some [[3]; [4]])]
  = Some [{| field_name := nm "ZD"; field_title := None; field_matrix := [[3]; [4]] |};
          {| field_name := nm "X1"; field_title := Some 0; field_matrix := [[1]] |}].
Proof. split; [repeat constructor; simpl; intuition discriminate|reflexivity]. Qed.

(* ---------- C37: data_to_dict ---------- *)

Section DataToDict.
  Context {V : Type}.

  (** When data_to_dict succeeds, no column overwrites another, for all field names: every single-column
      field is found under its name and column i of every other field under its name followed by i. *)
  Theorem C37_no_overwriting ignore_empty (fields m : @mapping V) key cols :
    NoDup (map fst fields) -> data_to_dict ignore_empty fields = Some m -> In (key, cols) fields ->
    (forall c, cols = [c] -> lookup m key = Some [c]) /\
    (2 <= List.length cols -> forall i, i < List.length cols ->
       lookup m (key ++ decimal i)%list = Some [nth i cols []]).
  Proof.
    intros ND OK F. split.
    - intros c ->. exact (dict_single ignore_empty fields m ND OK key c F).
    - intros L i Hi. exact (dict_column ignore_empty fields m ND OK key cols i F L Hi).
  Qed.

  (** A field is read back unchanged if no field is called after its first unused index. *)
  Theorem C37_read_back ignore_empty (fields m : @mapping V) key cols :
    NoDup (map fst fields) -> data_to_dict ignore_empty fields = Some m ->
    In (key, cols) fields -> cols <> [] ->
    (2 <= List.length cols -> ~ In (key ++ decimal (List.length cols))%list (map fst fields)) ->
    extract_matrix m key = Some (Some cols).
  Proof. intros ND OK. exact (dict_read_back ignore_empty fields m ND OK key cols). Qed.
End DataToDict.
Print Assumptions C37_no_overwriting.
Print Assumptions C37_read_back.

(** Without that condition the claim is false: the two columns of "x" are read back with "x2" attached,
    and an empty field is read back as another field. *)
Theorem C37_read_back_refuted :
  exists (fields m : @mapping nat) (key : name) (cols : matrix),
    NoDup (map fst fields) /\ data_to_dict true fields = Some m /\ In (key, cols) fields /\ cols <> [] /\
    exists extra, extra <> [] /\ extract_matrix m key = Some (Some (cols ++ extra)%list).
Proof.
  exists [(nm "x", [[1]; [2]]); (nm "x2", [[7]])].
  exists [(nm "x0", [[1]]); (nm "x1", [[2]]); (nm "x2", [[7]])], (nm "x"), [[1]; [2]].
  split; [repeat constructor; simpl; intuition discriminate|]. split; [reflexivity|].
  split; [left; reflexivity|]. split; [discriminate|]. exists [[7]]. split; [discriminate|reflexivity].
Qed.
Print Assumptions C37_read_back_refuted.

Example C37_applies :
  let fields := [(nm "x", repeat [1] 12); (nm "y", [[3]]); (nm "X12", [[4]])] in
  NoDup (map fst fields) /\ data_to_dict true fields <> None /\
  ~ In (nm "x" ++ decimal 12)%list (map fst fields).
Proof.
  split; [repeat constructor; simpl; intuition discriminate|]. split; [discriminate|].
  simpl. intuition discriminate.
Qed.

(* ---------- C48: parallel ---------- *)

(** A program that starts without a pool ends without one, wherever exceptions are raised and however
    contexts are nested; dill's setting is always restored. *)
Theorem C48_serial_after_program pathos_installed c s : pool s = None ->
  pool (state (execute pathos_installed c s)) = None /\
  recurse (state (execute pathos_installed c s)) = recurse s.
Proof. intros H. split; [exact (serial_kept pathos_installed c s H)|exact (recurse_kept pathos_installed c s)]. Qed.
Print Assumptions C48_serial_after_program.

(** Leaving a context with two or more processes, normally or not, leaves no pool whatever the state
    before, and the body sees the pool that was started. *)
Theorem C48_exit_drops_pool pathos_installed n use_pathos body s : (2 <= n)%Z ->
  (use_pathos = true -> pathos_installed = true) ->
  pool (state (execute pathos_installed (Parallel (Some n) use_pathos body) s)) = None /\
  raised (execute pathos_installed (Parallel (Some n) use_pathos body) s)
  = raised (execute_all pathos_installed body
      {| pool := Some (Z.to_nat n); recurse := orb use_pathos (recurse s) |}) /\
  events (execute pathos_installed (Parallel (Some n) use_pathos body) s)
  = Started (Z.to_nat n) :: events (execute_all pathos_installed body
      {| pool := Some (Z.to_nat n); recurse := orb use_pathos (recurse s) |}).
Proof.
  intros H I. rewrite execute_parallel. unfold parallel.
  destruct (Z.ltb_spec n 1); [lia|]. destruct (Z.eqb_spec n 1); [lia|].
  destruct use_pathos; [rewrite I by reflexivity|]; cbn [orb]; repeat split; reflexivity.
Qed.
Print Assumptions C48_exit_drops_pool.

(** With one process the body runs as it would outside the context, and no pool is started. *)
Theorem C48_one_process pathos_installed use_pathos body s :
  execute pathos_installed (Parallel (Some 1%Z) use_pathos body) s = execute_all pathos_installed body s.
Proof. exact (execute_parallel pathos_installed (Some 1%Z) use_pathos body s). Qed.
Print Assumptions C48_one_process.

(** Invalid arguments (and missing packages) are rejected before anything changes. *)
Theorem C48_rejected pathos_installed n use_pathos body s :
  n = None \/ (exists z, n = Some z /\ (z < 1)%Z) \/
    (exists z, n = Some z /\ (z <> 1)%Z /\ use_pathos = true /\ pathos_installed = false) ->
  execute pathos_installed (Parallel n use_pathos body) s = {| events := []; state := s; raised := true |}.
Proof.
  intros H. rewrite execute_parallel. unfold parallel.
  destruct H as [->|[[z [-> H]]|[z [-> [H [-> ->]]]]]]; [reflexivity| |].
  - destruct (Z.ltb_spec z 1); [reflexivity|lia].
  - destruct (Z.ltb_spec z 1); [reflexivity|]. destruct (Z.eqb_spec z 1); [lia|reflexivity].
Qed.
Print Assumptions C48_rejected.

(** Nested contexts do not restore the surrounding one: after an inner pool ends, the rest of the outer
    body runs without any pool; and a one-process context inside a pool still uses that pool, and leaves
    it in use when it exits. *)
Theorem C48_nested_refuted :
  events (execute true (Parallel (Some 4%Z) false [Use; Parallel (Some 2%Z) false [Use]; Use])
            {| pool := None; recurse := false |})
  = [Started 4; Used (Some 4); Started 2; Used (Some 2); Used None] /\
  events (execute true (Parallel (Some 4%Z) false [Parallel (Some 1%Z) false [Use]; Use])
            {| pool := None; recurse := false |})
  = [Started 4; Used (Some 4); Used (Some 4)].
Proof. split; reflexivity. Qed.
Print Assumptions C48_nested_refuted.

Example C48_applies :
  execute false (Try [Parallel (Some 3%Z) false [Use; Raise; Use]; Use]) {| pool := None; recurse := true |}
  = {| events := [Started 3; Used (Some 3)]; state := {| pool := None; recurse := true |}; raised := false |}.
Proof. reflexivity. Qed.

(* ---------- C55: finite differences ---------- *)

Local Open Scope R_scope.
(** Central differences of every quadratic function are its gradient, and second differences its Hessian,
    for every nonzero step. *)
Theorem C55_first_differences n c b A x epsilon k : (k < n)%nat -> epsilon <> 0 ->
  finite_difference (quadratic n c b A) x epsilon k = quadratic_gradient n b A x k.
Proof. exact (finite_difference_quadratic n c b A x epsilon k). Qed.
Print Assumptions C55_first_differences.

Theorem C55_second_differences n c b A x epsilon k l : (k < n)%nat -> (l < n)%nat -> epsilon <> 0 ->
  second_difference (quadratic n c b A) x epsilon k l = quadratic_hessian A k l.
Proof. exact (second_difference_quadratic n c b A x epsilon k l). Qed.
Print Assumptions C55_second_differences.

Example C55_applies :
  finite_difference (quadratic 2 1 (fun i => INR i) (fun i j => if (i <? j)%nat then 3 else 0)) (fun _ => 5) (1 / 7) 1
  = 16.
Proof.
  rewrite finite_difference_quadratic; [|lia|lra].
  unfold quadratic_gradient. simpl. lra.
Qed.
