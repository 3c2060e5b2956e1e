(** Properties C24 - C27, C63: the matrix cache. *)
From Coq Require Import String Ascii ZArith Lia List.
From Verif Require Import Base CacheModel CacheProofs.
Import ListNotations.
Open Scope string_scope.

Definition q (n : Z) (d : positive) : rat := (n, d).

(** * C24: wf_matrix = at least one row and one column, all rows of the same
    length, entries in lowest terms (as sympy keeps them). *)
Theorem C24_cache_text_round_trip : forall m, wf_matrix m ->
  matrix_from_string (matrix_to_string m) = Ok m /\
  forall m', wf_matrix m' -> matrix_to_string m' = matrix_to_string m -> m' = m.
Proof. intros m H. split; [exact (round_trip m H)|]. intros m' H'. exact (to_string_inj m' m H' H). Qed.
Print Assumptions C24_cache_text_round_trip.
Example C24_case : let m := [[q 1 2; q (-12) 1]; [q 0 1; q (-7) 30]] in
  wf_matrix m /\ matrix_to_string m = "1/2,-12;0,-7/30" /\ matrix_from_string "1/2,-12;0,-7/30" = Ok m.
Proof.
  split; [|split; reflexivity]. split; [discriminate|]. split.
  - exists 2%nat. split; [lia|]. repeat constructor.
  - repeat constructor.
Qed.

(** * C25: [last_saved t i] is the newest matrix saved under type t and id i
    (operations newest first); [fits] keeps it if it has the requested size. *)
Theorem C25_cache_is_a_map : forall hash ops t i size,
  (forall s, String.length (hash s) = 64%nat) ->
  (forall o, In o ops -> hash (op_id o) = hash i -> op_id o = i) ->
  Forall op_wf ops ->
  load_cached_matrix hash (run hash ops) t i size = Ok (fits size (last_saved t i (rev ops))).
Proof. exact cache_is_map. Qed.
Print Assumptions C25_cache_is_a_map.

Fixpoint pad (k : nat) (s : string) : string :=
  match k with
  | 0%nat => ""
  | S k' => match s with EmptyString => String "0" (pad k' "") | String a s' => String a (pad k' s') end
  end.
Lemma pad_length k : forall s, String.length (pad k s) = k.
Proof. induction k as [|k IH]; intros [|a s]; simpl; rewrite ?IH; reflexivity. Qed.

Example C25_case :
  let hash := pad 64 in
  let ops := [Save "dual" "a" [[q 1 2]]; Load "dual" "b" (1, 1)%nat; Save "dualinv" "a" [[q 2 1]];
              Save "dual" "a" [[q 3 1]]; Save "dual" "b" [[q 4 1; q 5 1]]] in
  (forall s, String.length (hash s) = 64%nat) /\
  (forall o, In o ops -> hash (op_id o) = hash "a" -> op_id o = "a") /\ Forall op_wf ops /\
  load_cached_matrix hash (run hash ops) "dual" "a" (1, 1)%nat = Ok (Some [[q 3 1]]) /\
  load_cached_matrix hash (run hash ops) "dualinv" "a" (1, 1)%nat = Ok (Some [[q 2 1]]) /\
  load_cached_matrix hash (run hash ops) "dual" "b" (1, 1)%nat = Ok None /\
  load_cached_matrix hash (run hash ops) "dual" "c" (1, 1)%nat = Ok None.
Proof.
  intros hash ops. split; [apply pad_length|]. split.
  - intros o Ho. simpl in Ho. repeat destruct Ho as [<-|Ho]; try contradiction; simpl; intros H;
      (reflexivity || discriminate).
  - split; [|split; [reflexivity|split; [reflexivity|split; reflexivity]]].
    assert (W : forall c m, m <> [] -> (1 <= c)%nat -> Forall (fun r => length r = c) m ->
                Forall (Forall canonical) m -> wf_matrix m).
    { intros c m H1 H2 H3 H4. split; [exact H1|]. split; [exists c; auto|exact H4]. }
    apply Forall_cons; [apply (W 1%nat); [discriminate|lia|repeat constructor..]|].
    apply Forall_cons; [exact I|].
    apply Forall_cons; [apply (W 1%nat); [discriminate|lia|repeat constructor..]|].
    apply Forall_cons; [apply (W 1%nat); [discriminate|lia|repeat constructor..]|].
    apply Forall_cons; [apply (W 2%nat); [discriminate|lia|repeat constructor..]|constructor].
Qed.

(** * C26: false.  Full claim: for every state a crash inside save can leave
    behind, a later load returns None or the matrix being saved.  Witness: the
    text "12" cut after one character loads as the matrix [1]; the empty file
    makes the load raise. *)
Theorem C26_crash_safe_refuted : forall hash, exists m t i f1 f2 m',
  wf_matrix m /\ m' <> m /\
  crash_state hash empty_fs t i m f1 /\ load_cached_matrix hash f1 t i (rows m, cols m) = Ok (Some m') /\
  crash_state hash empty_fs t i m f2 /\ load_cached_matrix hash f2 t i (rows m, cols m) = Err SympifyError.
Proof.
  intros hash. exists [[q 12 1]], "dual", "id", (write empty_fs (filename hash "dual" "id") "1"),
    (write empty_fs (filename hash "dual" "id") ""), [[q 1 1]].
  split. { split; [discriminate|]. split; [exists 1%nat; split; [lia|repeat constructor]|repeat constructor]. }
  split; [discriminate|]. split; [exact (crash_during hash empty_fs "dual" "id" [[q 12 1]] "1" "2" eq_refl)|].
  split. { unfold load_cached_matrix, write. rewrite String.eqb_refl. reflexivity. }
  split; [exact (crash_during hash empty_fs "dual" "id" [[q 12 1]] "" "12" eq_refl)|].
  unfold load_cached_matrix, write. rewrite String.eqb_refl. reflexivity.
Qed.
Print Assumptions C26_crash_safe_refuted.

(** What does hold: a matrix loaded after a crash during the write agrees with
    the one being saved in every entry but possibly the very last.  (Missing from the
    full claim: the last entry can be wrong, and the load can raise.) *)
Theorem C26_crash_safe_partial : forall hash f t i m f' m',
  wf_matrix m -> f (filename hash t i) = None -> crash_state hash f t i m f' ->
  load_cached_matrix hash f' t i (rows m, cols m) = Ok (Some m') ->
  rows m' = rows m /\ cols m' = cols m /\
  forall r c, (r < rows m)%nat -> (c < cols m)%nat -> ~ (r = rows m - 1 /\ c = cols m - 1)%nat ->
    entry m' r c = entry m r c.
Proof.
  intros hash f t i m f' m' Hm Hf Hcr Hl. destruct Hcr as [|p s E].
  - unfold load_cached_matrix in Hl. rewrite Hf in Hl. discriminate.
  - unfold load_cached_matrix, write in Hl. rewrite String.eqb_refl in Hl.
    destruct (matrix_from_string p) as [mm|] eqn:Ep; [|discriminate]. cbn [fst snd] in Hl.
    destruct (Nat.eqb_spec (rows mm) (rows m)) as [Er|]; [|discriminate].
    destruct (Nat.eqb_spec (cols mm) (cols m)) as [Ec|]; [|discriminate].
    injection Hl as <-. split; [exact Er|]. split; [exact Ec|]. exact (crash_prefix m p s mm Hm E Ep Er Ec).
Qed.
Print Assumptions C26_crash_safe_partial.
Example C26_case : let hash := pad 64 in
  let m := [[q 1 2; q 3 1]; [q 5 1; q 123 1]] in let f' := write empty_fs (filename hash "dual" "id") "1/2,3;5,1" in
  wf_matrix m /\ crash_state hash empty_fs "dual" "id" m f' /\
  load_cached_matrix hash f' "dual" "id" (2, 2)%nat = Ok (Some [[q 1 2; q 3 1]; [q 5 1; q 1 1]]).
Proof.
  intros hash m f'. split; [|split].
  - split; [discriminate|]. split; [exists 2%nat; split; [lia|repeat constructor]|repeat constructor].
  - exact (crash_during hash empty_fs "dual" "id" m "1/2,3;5,1" "23" eq_refl).
  - reflexivity.
Qed.

(** * C27: class names and revision strings contain no blank (they are a python
    identifier and a version number); the option text is arbitrary. *)
Theorem C27_cache_identifier_injective : forall hash e e' b b',
  wf_element e -> wf_element e' -> (forall s, String.length (hash s) = 64%nat) ->
  (hash (cache_id e) = hash (cache_id e') -> cache_id e = cache_id e') ->
  (cache_id e = cache_id e' -> e = e') /\
  (filename hash (dual_type b) (cache_id e) = filename hash (dual_type b') (cache_id e') -> b = b' /\ e = e').
Proof.
  intros hash e e' b b' He He' Hh Hi. split; [exact (cache_id_inj e e' He He')|].
  intros H. destruct (filename_inj hash _ _ _ _ Hh H) as [Ht Hid].
  exact (conj (dual_type_inj b b' Ht) (cache_id_inj e e' He He' (Hi Hid))).
Qed.
Print Assumptions C27_cache_identifier_injective.
Example C27_case : let e := {| e_class := "Lagrange"; e_order := 2; e_vertices := [[q 0 1]; [q 1 2]];
    e_kwargs := "{'variant': 'equispaced'}"; e_updated := "2023.09" |} in
  wf_element e /\ cache_id e = "Lagrange 2 ((0,), (1/2,)) {'variant': 'equispaced'} 2023.09".
Proof. split; [|reflexivity]. split; repeat split; discriminate. Qed.

(** * C63: the cache is transparent: after any calls of get_dual_matrix
    starting from an empty cache directory, a further call succeeds and returns what the
    uncached computation returns.  [used] is the set of elements ever asked for. *)
Theorem C63_cache_transparent : forall hash compute ndofs (used : element -> Prop) calls e b,
  (forall s, String.length (hash s) = 64%nat) ->
  (forall x y, used x -> used y -> hash (cache_id x) = hash (cache_id y) -> cache_id x = cache_id y) ->
  (forall x, used x -> wf_element x) ->
  (forall x inv, used x -> wf_matrix (compute x inv) /\
     rows (compute x inv) = ndofs x /\ cols (compute x inv) = ndofs x) ->
  Forall (fun c => used (fst c)) calls -> used e ->
  exists f f', run_dual hash compute ndofs empty_fs calls = Ok f /\
    get_dual_matrix hash compute ndofs f e b = Ok (compute e b, f').
Proof.
  intros hash compute ndofs used calls e b Hh Hi Hw Hc Hcalls He.
  destruct (run_dual_good hash compute ndofs used Hh Hi Hw Hc calls empty_fs
              (empty_good hash compute used) Hcalls) as (f & E & Hf).
  destruct (get_dual_good hash compute ndofs used Hh Hi Hw Hc f e b Hf He) as (f' & E' & _).
  exists f, f'. exact (conj E E').
Qed.
Print Assumptions C63_cache_transparent.
Example C63_case :
  let P := {| e_class := "Lagrange"; e_order := 0; e_vertices := [[q 0 1]; [q 1 1]];
              e_kwargs := "{'variant': 'equispaced'}"; e_updated := "2023.09" |} in
  let compute := fun (e : element) (inv : bool) => if inv then [[q 1 2]] else [[q 2 1]] in
  wf_element P /\ (forall inv, wf_matrix (compute P inv)) /\
  exists f f', run_dual (pad 64) compute (fun _ => 1%nat) empty_fs [(P, true); (P, false)] = Ok f /\
    get_dual_matrix (pad 64) compute (fun _ => 1%nat) f P true = Ok ([[q 1 2]], f').
Proof.
  intros P compute. split; [split; repeat split; discriminate|]. split.
  - intros [|]; (split; [discriminate|split; [exists 1%nat; split; [lia|repeat constructor]|repeat constructor]]).
  - eexists. eexists. split; reflexivity.
Qed.
