(** Specification of the halo exchange, independent of buffers, tags,
    requests and channels. *)
From Verif Require Import Base Mpi.
Local Open Scope nat_scope.

(** Per rank: its send map and its receive map, one index list per peer. *)
Notation maps := (list (list (list nat) * list (list nat))).
Definition send_to (ms : maps) (s d : nat) : list nat := default [] (ms !! s ≫= fun sr => sr.1 !! d).
Definition recv_from (ms : maps) (d s : nat) : list nat := default [] (ms !! d ≫= fun sr => sr.2 !! s).

(** Matching maps: one list per rank; what s sends to d is as long as what d
    receives from s; no cell is received twice. *)
Record maps_ok (ms : maps) : Prop := MapsOk {
  mo_pos : 0 < length ms;
  mo_len : forall p sr, ms !! p = Some sr -> length sr.1 = length ms /\ length sr.2 = length ms;
  mo_match : forall s d, s < length ms -> d < length ms -> length (send_to ms s d) = length (recv_from ms d s);
  mo_nodup : forall d sr, ms !! d = Some sr -> NoDup (concat sr.2);
}.

(** Every value has sizeof(valueType) = sz bytes and every index of the map is
    a valid index of the field. *)
Definition fits (sz : nat) (x : list value) (m : list (list nat)) : Prop :=
  Forall (fun v => length v = sz) x /\ Forall (Forall (fun i => i < length x)) m.
Definition user_ok (ms : maps) (u : user) : Prop :=
  forall j, j < u_rounds u -> 0 < u_size u j /\
  forall p sr h, ms !! p = Some sr ->
    fits (u_size u j) (u_in u j p h) sr.1 /\ fits (u_size u j) (u_mid u j p (u_in u j p h)) sr.2.

(** The field rank p passed to startComm in round j. *)
Definition input (u : user) (j p : nat) (pr : proc) : list value := u_in u j p (take j (p_results pr)).

(** Every result is the field passed to finaliseComm, except that the k-th cell
    received from s holds what the k-th cell s sends held in s's field. *)
Definition exchanged (ms : maps) (u : user) (w : world) : Prop :=
  forall p pr j res, w_procs w !! p = Some pr -> p_results pr !! j = Some res ->
  let before := u_mid u j p (input u j p pr) in
  length res = length before /\
  (forall i, (forall s, i ∉ recv_from ms p s) -> res !! i = before !! i) /\
  (forall s ps k i l, w_procs w !! s = Some ps ->
     recv_from ms p s !! k = Some i -> send_to ms s p !! k = Some l ->
     j <= length (p_results ps) /\ res !! i = input u j s ps !! l).

(** Rank has completed all rounds. *)
Definition finished (u : user) (pr : proc) : Prop := length (p_results pr) = u_rounds u /\ p_started pr = u_rounds u.

(** isComplete is a question: it can be asked any number of times and does not
    count as progress. *)
Definition is_test (a : action) : bool := match a with ATest _ => true | _ => false end.

(** A schedule in which every action is possible when it comes. *)
Fixpoint effective (pl : platform) (u : user) (acts : list action) (w : world) : Prop :=
  match acts with
  | [] => True
  | a :: acts' => exists w', act pl u a w = Some (Ok w') /\ effective pl u acts' w'
  end.
