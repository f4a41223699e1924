(** MPI communication buffers and the halo-exchange Communicator.

    Files: include/NeoFOAM/core/mpi/halfDuplexCommBuffer.hpp,
           src/core/mpi/halfDuplexCommBuffer.cpp,
           include/NeoFOAM/core/mpi/fullDuplexCommBuffer.hpp,
           include/NeoFOAM/mesh/unstructured/communicator.hpp,
           src/mesh/unstructured/communicator.cpp.

    Simplifications: size_t and the int message length are unbounded; MPI calls
    do not fail; a value of type T is its object representation, a list of
    sizeof(T) bytes. *)
From Coq Require Export Strings.Byte.
From stdpp Require Export gmap.
From Verif Require Import Base.

(** What the build and platform fix: whether NF_DEBUG is defined
    (error.hpp: NF_DEBUG_ASSERT is a no-op otherwise), std::hash<std::string>
    (any function to 64-bit numbers), and how std::vector grows. *)
Record platform := Platform {
  debug : bool;
  hash : string -> N;
  grow : nat -> nat;         (* new capacity from the old one *)
}.
(** libstdc++ / libc++: max(1, 2*capacity) *)
Definition grow_double (c : nat) : nat := Nat.max 1 (2 * c).

(** loop whose body may fail *)
Fixpoint ofold {A B} (f : A -> B -> outcome A) (l : list B) (a : A) : outcome A :=
  match l with
  | [] => Ok a
  | b :: l' => let! a' := f a b in ofold f l' a'
  end.

(** NF_DEBUG_ASSERT *)
Definition dassert (pl : platform) (b : bool) : outcome unit :=
  if debug pl && negb b then Exit else Ok tt.

(** halfDuplexCommBuffer.hpp:28-36. [static_cast<int>(tag) % maxTagValue]: the
    masked value is non-negative, so C++'s % is the mathematical remainder. *)
Definition bufferHash (pl : platform) (name : string) : Z :=
  (Z.of_N (N.land (hash pl name) 2147483647%N) mod (32767 - 10) + 10)%Z.

(** An MPI_Request: MPI_REQUEST_NULL, pending, or completed but not yet
    observed by MPI_Test. *)
Inductive request := RNull | RPending | RDone.
Global Instance request_eq_dec : EqDecision request.
Proof. solve_decision. Defined.

(** The object, members l.202-209. [mpiEnviron_.sizeRank()] is the argument
    [n] of the functions below. *)
Record hbuf := HBuf {
  h_tag : Z;
  h_name : string;
  h_tsize : nat;
  h_reqs : list request;
  h_data : list byte;
  h_off : list nat;
}.
(** default constructor, l.56, and member initialisers l.202-204 *)
Definition hbuf_default : hbuf := HBuf (-1)%Z "unassigned" 1 [] [] [].

(** l.87 *)
Definition isCommInit (b : hbuf) : bool := negb (Z.eqb (h_tag b) (-1)).

(** std::vector::resize to size k with fill value x *)
Definition vresize {A} (k : nat) (x : A) (l : list A) : list A :=
  take k l ++ replicate (k - length l) x.

(** l.235-246: one pass computing the offsets; [rankSize] may read out of
    bounds. Result: the offsets written and the final dataSize. *)
Fixpoint offsets_from (rankSize : nat -> outcome nat) (newSize : nat) (ranks : list nat) (dataSize : nat)
  : outcome (list nat * nat) :=
  match ranks with
  | [] => Ok ([], dataSize)
  | r :: rs =>
      let! k := rankSize r in
      let! p := offsets_from rankSize newSize rs (dataSize + k * newSize) in
      Ok (dataSize :: p.1, p.2)
  end.
(** rankOffset_ must have at least n entries and be non-empty; [back()] is the
    last entry. *)
Definition updateDataSize (n : nat) (rankSize : nat -> outcome nat) (newSize : nat) (b : hbuf) : outcome hbuf :=
  let! p := offsets_from rankSize newSize (seq 0 n) 0 in
  if (length (h_off b) <? n)%nat || (length (h_off b) =? 0)%nat then UB else
  let off' := p.1 ++ drop n (h_off b) in
  let off'' := take (length off' - 1) off' ++ [p.2] in
  Ok (HBuf (h_tag b) (h_name b) (h_tsize b) (h_reqs b)
        (if (length (h_data b) <? p.2)%nat then vresize p.2 x00 (h_data b) else h_data b) off'').

(** l.95-109 *)
Definition setCommRankSize (pl : platform) (n sz : nat) (rankCommSize : list nat) (b : hbuf) : outcome hbuf :=
  let! _ := dassert pl (negb (isCommInit b)) in
  let! _ := dassert pl (length rankCommSize =? n)%nat in
  let b1 := HBuf (h_tag b) (h_name b) sz
              (vresize (length rankCommSize) RNull (h_reqs b)) (h_data b)
              (vresize (length rankCommSize + 1) 0 (h_off b)) in
  updateDataSize n (fun r => oget (rankCommSize !! r)) sz b1.

(** constructor l.70-74 *)
Definition hbuf_new (pl : platform) (n : nat) (rankCommSize : list nat) : outcome hbuf :=
  setCommRankSize pl n 1 rankCommSize hbuf_default.

(** l.212-226 *)
Definition setType (pl : platform) (n sz : nat) (b : hbuf) : outcome hbuf :=
  let! _ := dassert pl (negb (isCommInit b)) in
  if (h_tsize b =? sz)%nat then Ok b else
  let! b1 := updateDataSize n
    (fun r => let! hi := oget (h_off b !! (r + 1)) in
              let! lo := oget (h_off b !! r) in Ok ((hi - lo) / h_tsize b)) sz b in
  Ok (HBuf (h_tag b1) (h_name b1) sz (h_reqs b1) (h_data b1) (h_off b1)).

(** l.117-126 *)
Definition initComm (pl : platform) (n sz : nat) (name : string) (b : hbuf) : outcome hbuf :=
  let! _ := dassert pl (negb (isCommInit b)) in
  let! b1 := setType pl n sz b in
  Ok (HBuf (bufferHash pl name) name (h_tsize b1) (h_reqs b1) (h_data b1) (h_off b1)).

(** A window: byte offset into rankBuffer_ and number of elements. *)
Record span := Span { sp_off : nat; sp_count : nat }.

(** l.169-178, l.187-196: get<valueType>(rank) *)
Definition get (pl : platform) (sz rank : nat) (b : hbuf) : outcome span :=
  let! _ := dassert pl (isCommInit b) in
  let! _ := dassert pl (h_tsize b =? sz)%nat in
  let! lo := oget (h_off b !! rank) in
  let! hi := oget (h_off b !! (rank + 1)) in
  Ok (Span lo ((hi - lo) / sz)).

(** MPI_Test on one request: the flag and the request afterwards *)
Definition mpi_test (r : request) : bool * request :=
  match r with RNull => (true, RNull) | RPending => (false, RPending) | RDone => (true, RNull) end.

(** halfDuplexCommBuffer.cpp:12-23: tests in order, stops at the first that is
    not complete. [flag] is uninitialised if there are no requests. *)
Fixpoint test_all (rs : list request) : bool * list request :=
  match rs with
  | [] => (true, [])
  | r :: rs' =>
      let '(f, r') := mpi_test r in
      if f then let '(g, rs'') := test_all rs' in (g, r' :: rs'') else (false, r' :: rs')
  end.
Definition set_reqs (b : hbuf) (rs : list request) : hbuf :=
  HBuf (h_tag b) (h_name b) (h_tsize b) rs (h_data b) (h_off b).
Definition isComplete (pl : platform) (b : hbuf) : outcome (bool * hbuf) :=
  let! _ := dassert pl (isCommInit b) in
  match h_reqs b with
  | [] => UB
  | _ => let '(f, rs) := test_all (h_reqs b) in Ok (f, set_reqs b rs)
  end.

(** NF_DEBUG_ASSERT(isComplete(), ..): the condition, with its side effect, is
    only evaluated in debug builds *)
Definition dassert_complete (pl : platform) (b : hbuf) : outcome hbuf :=
  if debug pl then
    let! p := isComplete pl b in
    if p.1 then Ok p.2 else Exit
  else Ok b.

(** A message posted: peer rank, byte offset into rankBuffer_, length, tag *)
Record post := Post { po_rank : nat; po_off : nat; po_len : nat; po_tag : Z }.

(** halfDuplexCommBuffer.cpp:25-41 (send) and 43-59 (receive): the same loop,
    one MPI_Isend / MPI_Irecv per rank with data. *)
Definition post_rank (b : hbuf) (acc : list post * list request) (rank : nat) : outcome (list post * list request) :=
  let! lo := oget (h_off b !! rank) in
  let! hi := oget (h_off b !! (rank + 1)) in
  if (hi - lo =? 0)%nat then Ok acc else
  let! _ := oget (acc.2 !! rank) in
  Ok (acc.1 ++ [Post rank lo (hi - lo) (h_tag b)], <[rank := RPending]> acc.2).
Definition post_all (pl : platform) (n : nat) (b : hbuf) : outcome (list post * hbuf) :=
  let! _ := dassert pl (isCommInit b) in
  let! b1 := dassert_complete pl b in
  let! acc := ofold (post_rank b1) (seq 0 n) ([], h_reqs b1) in
  Ok (acc.1, set_reqs b1 acc.2).

(** halfDuplexCommBuffer.cpp:71-81 *)
Definition h_finalise (pl : platform) (b : hbuf) : outcome hbuf :=
  let! _ := dassert pl (isCommInit b) in
  let! b1 := dassert_complete pl b in
  let! _ := dassert pl (forallb (fun r => bool_decide (r = RNull)) (h_reqs b1)) in
  Ok (HBuf (-1)%Z "unassigned" (h_tsize b1) (h_reqs b1) (h_data b1) (h_off b1)).

(** ** FullDuplexCommBuffer (fullDuplexCommBuffer.hpp) *)
Record fbuf := FBuf { f_send : hbuf; f_recv : hbuf }.
(** l.43-48 *)
Definition fbuf_new (pl : platform) (n : nat) (sendSize recvSize : list nat) : outcome fbuf :=
  let! s := hbuf_new pl n sendSize in
  let! r := hbuf_new pl n recvSize in Ok (FBuf s r).
(** l.54 *)
Definition f_isCommInit (f : fbuf) : bool := isCommInit (f_send f) && isCommInit (f_recv f).
(** l.61-66 *)
Definition f_initComm (pl : platform) (n sz : nat) (name : string) (f : fbuf) : outcome fbuf :=
  let! s := initComm pl n sz name (f_send f) in
  let! r := initComm pl n sz name (f_recv f) in Ok (FBuf s r).
(** l.119-123: the sends, then the receives *)
Definition f_startComm (pl : platform) (n : nat) (f : fbuf) : outcome (list post * list post * fbuf) :=
  let! ps := post_all pl n (f_send f) in
  let! pr := post_all pl n (f_recv f) in
  Ok (ps.1, pr.1, FBuf ps.2 pr.2).
(** l.129: && short-circuits *)
Definition f_isComplete (pl : platform) (f : fbuf) : outcome (bool * fbuf) :=
  let! s := isComplete pl (f_send f) in
  if s.1 then
    let! r := isComplete pl (f_recv f) in
    Ok (r.1, FBuf s.2 r.2)
  else Ok (false, FBuf s.2 (f_recv f)).
(** l.143-147 *)
Definition f_finaliseComm (pl : platform) (f : fbuf) : outcome fbuf :=
  let! s := h_finalise pl (f_send f) in
  let! r := h_finalise pl (f_recv f) in Ok (FBuf s r).
(** halfDuplexCommBuffer.cpp:61-69 with fullDuplexCommBuffer.hpp:134-138: the
    blocking wait, seen from the moment it can return: [None] while it would
    still spin. *)
Definition h_wait (pl : platform) (b : hbuf) : outcome (option hbuf) :=
  let! _ := dassert pl (isCommInit b) in
  let! p := isComplete pl b in
  Ok (if p.1 then Some p.2 else None).
Definition f_wait (pl : platform) (f : fbuf) : outcome (option fbuf) :=
  let! s := h_wait pl (f_send f) in
  match s with
  | None => Ok None
  | Some s' =>
      let! r := h_wait pl (f_recv f) in
      Ok (match r with Some r' => Some (FBuf s' r') | None => None end)
  end.

(** ** Communicator (communicator.hpp)
    [CommBuffer_] holds raw pointers into the vector [buffers]. A pointer is
    the number of the allocation it points into and an index; growing beyond
    the capacity moves the elements to a new allocation and frees the old one
    (HalfDuplexCommBuffer declares its destructor, so elements are copied). *)
Notation ptr := (nat * nat)%type.
Notation value := (list byte).

Record comm := Comm {
  c_send : list (list nat);        (* sendMap_    *)
  c_recv : list (list nat);        (* receiveMap_ *)
  c_bufs : list fbuf;              (* buffers     *)
  c_cap : nat;                     (* buffers.capacity() *)
  c_epoch : nat;                   (* current allocation *)
  c_map : gmap string (option ptr) (* CommBuffer_; None is nullptr *)
}.
(** constructor l.67-79 *)
Definition comm_new (pl : platform) (n : nat) (sendMap recvMap : list (list nat)) : outcome comm :=
  let! _ := dassert pl (n =? length sendMap)%nat in
  let! _ := dassert pl (n =? length recvMap)%nat in
  Ok (Comm sendMap recvMap [] 0 0 ∅).

Definition set_map (c : comm) (m : gmap string (option ptr)) : comm :=
  Comm (c_send c) (c_recv c) (c_bufs c) (c_cap c) (c_epoch c) m.
Definition deref (c : comm) (p : ptr) : outcome fbuf :=
  if (p.1 =? c_epoch c)%nat then oget (c_bufs c !! p.2) else UB.
Definition set_buf (c : comm) (i : nat) (f : fbuf) : comm :=
  Comm (c_send c) (c_recv c) (<[i := f]> (c_bufs c)) (c_cap c) (c_epoch c) (c_map c).

(** communicator.cpp:17-22 *)
Fixpoint find_free (bs : list fbuf) (i : nat) : option nat :=
  match bs with
  | [] => None
  | b :: bs' => if f_isCommInit b then find_free bs' (S i) else Some i
  end.
(** communicator.cpp:24-36 *)
Definition createNew (pl : platform) (n : nat) (c : comm) : outcome (ptr * comm) :=
  let! ss := ofold (fun acc r => let! m := oget (c_send c !! r) in Ok (acc ++ [length m])) (seq 0 n) [] in
  let! rs := ofold (fun acc r => let! m := oget (c_recv c !! r) in Ok (acc ++ [length m])) (seq 0 n) [] in
  let! f := fbuf_new pl n ss rs in
  let realloc := (c_cap c <=? length (c_bufs c))%nat in
  let e := if realloc then S (c_epoch c) else c_epoch c in
  let cap := if realloc then Nat.max (S (length (c_bufs c))) (grow pl (c_cap c)) else c_cap c in
  Ok ((e, length (c_bufs c)), Comm (c_send c) (c_recv c) (c_bufs c ++ [f]) cap e (c_map c)).

(** writing element k of a window: [rankBuffer[data] = field(idx)] *)
Definition span_write (s : span) (sz k : nat) (v : value) (d : list byte) : outcome (list byte) :=
  if ((k <? sp_count s) && (sp_off s + k * sz + sz <=? length d) && (length v =? sz))%nat
  then Ok (list_inserts (sp_off s + k * sz) v d) else UB.
Definition span_read (s : span) (sz k : nat) (d : list byte) : outcome value :=
  if ((k <? sp_count s) && (sp_off s + k * sz + sz <=? length d))%nat
  then Ok (take sz (drop (sp_off s + k * sz) d)) else UB.
Definition set_data (b : hbuf) (d : list byte) : hbuf :=
  HBuf (h_tag b) (h_name b) (h_tsize b) (h_reqs b) d (h_off b).

(** communicator.hpp:103-108: pack the send windows *)
Definition pack_one (pl : platform) (sz : nat) (sp : span) (m : list nat) (field : list value)
    (d : list byte) (k : nat) : outcome (list byte) :=
  let! idx := oget (m !! k) in
  let! v := oget (field !! idx) in
  span_write sp sz k v d.
Definition pack_rank (pl : platform) (sz : nat) (sendMap : list (list nat)) (field : list value)
    (b : hbuf) (rank : nat) : outcome hbuf :=
  let! sp := get pl sz rank b in
  let! m := oget (sendMap !! rank) in
  let! d := ofold (pack_one pl sz sp m field) (seq 0 (length m)) (h_data b) in
  Ok (set_data b d).
(** communicator.hpp:133-137: unpack the receive windows *)
Definition unpack_one (pl : platform) (sz : nat) (sp : span) (m : list nat) (d : list byte)
    (field : list value) (k : nat) : outcome (list value) :=
  let! idx := oget (m !! k) in
  let! v := span_read sp sz k d in
  let! _ := oget (field !! idx) in
  Ok (<[idx := v]> field).
Definition unpack_rank (pl : platform) (sz : nat) (recvMap : list (list nat)) (b : hbuf)
    (field : list value) (rank : nat) : outcome (list value) :=
  let! sp := get pl sz rank b in
  let! m := oget (recvMap !! rank) in
  ofold (unpack_one pl sz sp m (h_data b)) (seq 0 (length m)) field.

(** communicator.hpp:87-110 startComm<valueType>. Result: the sends and the
    receives posted, where they point, and the communicator afterwards. *)
Definition startComm (pl : platform) (n sz : nat) (field : list value) (name : string) (c : comm)
  : outcome (list post * list post * ptr * comm) :=
  let! _ := dassert pl (match c_map c !! name with Some (Some _) => false | _ => true end) in
  let! q :=
    match find_free (c_bufs c) 0 with
    | Some i => Ok ((c_epoch c, i), c)
    | None => createNew pl n c
    end in
  let p := q.1 in
  let c1 := set_map q.2 (<[name := Some p]> (c_map q.2)) in
  let! f := deref c1 p in
  let! f1 := f_initComm pl n sz name f in
  let! s := ofold (pack_rank pl sz (c_send c1) field) (seq 0 n) (f_send f1) in
  let! r := f_startComm pl n (FBuf s (f_recv f1)) in
  Ok (r.1.1, r.1.2, p, set_buf c1 p.2 r.2).

(** communicator.cpp:8-15 *)
Definition comm_isComplete (pl : platform) (name : string) (c : comm) : outcome (bool * comm) :=
  let! _ := dassert pl (match c_map c !! name with Some _ => true | None => false end) in
  match c_map c !! name with
  | Some (Some p) =>
      let! f := deref c p in
      let! r := f_isComplete pl f in
      Ok (r.1, set_buf c p.2 r.2)
  | _ => UB                     (* operator[] default-inserts nullptr, then -> *)
  end.

(** communicator.hpp:125-142; [None] while the wait would spin *)
Definition finaliseComm (pl : platform) (n sz : nat) (field : list value) (name : string) (c : comm)
  : outcome (option (list value * comm)) :=
  let! _ := dassert pl (match c_map c !! name with Some (Some _) => true | _ => false end) in
  match c_map c !! name with
  | Some (Some p) =>
      let! f := deref c p in
      let! w := f_wait pl f in
      match w with
      | None => Ok None
      | Some f1 =>
          let! field' := ofold (unpack_rank pl sz (c_recv c) (f_recv f1)) (seq 0 n) field in
          let! f2 := f_finaliseComm pl f1 in
          Ok (Some (field', set_map (set_buf c p.2 f2) (<[name := None]> (c_map c))))
      end
  | _ => UB
  end.

(** ** Ranks and the MPI library
    Messages between a pair of ranks with one tag form a first-in first-out
    channel (MPI's non-overtaking rule); the k-th message matches the k-th
    receive posted. Until it is delivered or buffered by the library a message
    is only a reference to the sender's memory. *)
Record mref := MRefTo { mr_ptr : ptr; mr_off : nat; mr_len : nat }.
Inductive msg := MRef (m : mref) | MData (d : list byte).

(** The user's program: in round j every rank calls startComm on the field
    [u_in], later finaliseComm on the field [u_mid]. Both may depend on the
    rank and on all earlier results. *)
Record user := User {
  u_rounds : nat;
  u_name : nat -> string;
  u_size : nat -> nat;                                     (* sizeof(valueType) *)
  u_in : nat -> nat -> list (list value) -> list value;    (* round rank results *)
  u_mid : nat -> nat -> list value -> list value;          (* round rank field *)
}.
Record proc := Proc {
  p_comm : comm;
  p_started : nat;                 (* rounds started *)
  p_field : list value;            (* field of the round in flight *)
  p_results : list (list value);   (* fields after finaliseComm, one per round finished *)
}.
Record world := World {
  w_procs : list proc;
  w_chan : nat -> nat -> Z -> list msg;      (* source, destination, tag *)
  w_posted : nat -> nat -> Z -> list mref;   (* receives posted, same key *)
}.
Definition upd3 {A} (f : nat -> nat -> Z -> A) (s d : nat) (t : Z) (x : A) : nat -> nat -> Z -> A :=
  fun s' d' t' => if bool_decide (s' = s /\ d' = d /\ t' = t) then x else f s' d' t'.

Definition do_sends (me : nat) (p : ptr) (ps : list post) (ch : nat -> nat -> Z -> list msg) :=
  foldl (fun ch po => upd3 ch me (po_rank po) (po_tag po)
     (ch me (po_rank po) (po_tag po) ++ [MRef (MRefTo p (po_off po) (po_len po))])) ch ps.
Definition do_recvs (me : nat) (p : ptr) (ps : list post) (ch : nat -> nat -> Z -> list mref) :=
  foldl (fun ch po => upd3 ch (po_rank po) me (po_tag po)
     (ch (po_rank po) me (po_tag po) ++ [MRefTo p (po_off po) (po_len po)])) ch ps.

(** The library reads [len] bytes of the sender's buffer and completes the send
    request for rank [d]; or writes received bytes and completes the receive
    request for rank [s]. Touching a freed allocation is undefined behaviour. *)
Definition lib_read (c : comm) (m : mref) (d : nat) : outcome (list byte * comm) :=
  let! f := deref c (mr_ptr m) in
  if (mr_off m + mr_len m <=? length (h_data (f_send f)))%nat then
    Ok (take (mr_len m) (drop (mr_off m) (h_data (f_send f))),
        set_buf c (mr_ptr m).2 (FBuf (set_reqs (f_send f) (<[d := RDone]> (h_reqs (f_send f)))) (f_recv f)))
  else UB.
(** a message longer than the receive is an MPI error (abort) *)
Definition lib_write (c : comm) (m : mref) (s : nat) (bytes : list byte) : outcome comm :=
  let! f := deref c (mr_ptr m) in
  if (mr_len m <? length bytes)%nat then Exit else
  if (mr_off m + length bytes <=? length (h_data (f_recv f)))%nat then
    Ok (set_buf c (mr_ptr m).2
      (FBuf (f_send f) (HBuf (h_tag (f_recv f)) (h_name (f_recv f)) (h_tsize (f_recv f))
         (<[s := RDone]> (h_reqs (f_recv f))) (list_inserts (mr_off m) bytes (h_data (f_recv f))) (h_off (f_recv f)))))
  else UB.

Definition set_comm (p : proc) (c : comm) : proc := Proc c (p_started p) (p_field p) (p_results p).
Definition set_proc (w : world) (i : nat) (p : proc) : world := World (<[i := p]> (w_procs w)) (w_chan w) (w_posted w).

Inductive action :=
| AStart (r : nat)                             (* rank r calls startComm for its next round *)
| ATest (r : nat)                              (* rank r calls isComplete for its round     *)
| AFinalise (r : nat)                          (* rank r's finaliseComm gets through        *)
| ABuffer (s d : nat) (t : Z) (i : nat)        (* the library buffers the i-th message      *)
| ADeliver (s d : nat) (t : Z).                (* the library delivers the oldest message   *)

(** [None]: not possible in this state *)
Definition act (pl : platform) (u : user) (a : action) (w : world) : option (outcome world) :=
  let n := length (w_procs w) in
  match a with
  | AStart r =>
      p ← w_procs w !! r;
      let j := p_started p in
      if ((j <? u_rounds u) && (length (p_results p) =? j))%nat then
        let field := u_in u j r (p_results p) in
        Some (let! x := startComm pl n (u_size u j) field (u_name u j) (p_comm p) in
              Ok (World (<[r := Proc x.2 (S j) field (p_results p)]> (w_procs w))
                    (do_sends r x.1.2 x.1.1.1 (w_chan w))
                    (do_recvs r x.1.2 x.1.1.2 (w_posted w))))
      else None
  | ATest r =>
      p ← w_procs w !! r;
      let j := length (p_results p) in
      if (j <? p_started p)%nat then
        Some (let! x := comm_isComplete pl (u_name u j) (p_comm p) in Ok (set_proc w r (set_comm p x.2)))
      else None
  | AFinalise r =>
      p ← w_procs w !! r;
      let j := length (p_results p) in
      if (j <? p_started p)%nat then
        match finaliseComm pl n (u_size u j) (u_mid u j r (p_field p)) (u_name u j) (p_comm p) with
        | Ok None => None
        | Ok (Some (field, c)) =>
            Some (Ok (set_proc w r (Proc c (p_started p) field (p_results p ++ [field]))))
        | Throw e => Some (Throw e)
        | Exit => Some Exit
        | UB => Some UB
        end
      else None
  | ABuffer s d t i =>
      m ← w_chan w s d t !! i;
      ps ← w_procs w !! s;
      match m with
      | MData _ => None
      | MRef m =>
          Some (let! x := lib_read (p_comm ps) m d in
                Ok (World (<[s := set_comm ps x.2]> (w_procs w))
                      (upd3 (w_chan w) s d t (<[i := MData x.1]> (w_chan w s d t))) (w_posted w)))
      end
  | ADeliver s d t =>
      match w_chan w s d t, w_posted w s d t with
      | MData bytes :: ch, rv :: pst =>
          pd ← w_procs w !! d;
          Some (let! c := lib_write (p_comm pd) rv s bytes in
                Ok (World (<[d := set_comm pd c]> (w_procs w)) (upd3 (w_chan w) s d t ch) (upd3 (w_posted w) s d t pst)))
      | MRef m :: ch, rv :: pst =>
          ps ← w_procs w !! s;
          Some (let! x := lib_read (p_comm ps) m d in
                let procs1 := <[s := set_comm ps x.2]> (w_procs w) in
                let! pd := oget (procs1 !! d) in
                let! c := lib_write (p_comm pd) rv s x.1 in
                Ok (World (<[d := set_comm pd c]> procs1) (upd3 (w_chan w) s d t ch) (upd3 (w_posted w) s d t pst)))
      | _, _ => None
      end
  end.

(** Every interleaving: any list of actions, impossible ones skipped. *)
Fixpoint run (pl : platform) (u : user) (acts : list action) (w : world) : outcome world :=
  match acts with
  | [] => Ok w
  | a :: acts' =>
      match act pl u a w with
      | None => run pl u acts' w
      | Some o => let! w' := o in run pl u acts' w'
      end
  end.

(** Fresh communicators on every rank, nothing in flight. *)
Definition world_init (comms : list comm) : world :=
  World (map (fun c => Proc c 0 [] []) comms) (fun _ _ _ => []) (fun _ _ _ => []).

(** ** Histories of calls on one half-duplex buffer *)
Inductive hop :=
| HSize (sz : nat) (counts : list nat)     (* setCommRankSize<T>           *)
| HInit (sz : nat) (name : string)         (* initComm<T>                  *)
| HPost                                    (* send() or receive()          *)
| HLib (rank : nat)                        (* MPI completes that request   *)
| HTest                                    (* isComplete()                 *)
| HFinalise.                               (* finaliseComm()               *)
Definition do_hop (pl : platform) (n : nat) (o : hop) (b : hbuf) : outcome hbuf :=
  match o with
  | HSize sz counts => setCommRankSize pl n sz counts b
  | HInit sz name => initComm pl n sz name b
  | HPost => let! p := post_all pl n b in Ok p.2
  | HLib r => Ok (match h_reqs b !! r with
                  | Some RPending => set_reqs b (<[r := RDone]> (h_reqs b)) | _ => b end)
  | HTest => let! p := isComplete pl b in Ok p.2
  | HFinalise => h_finalise pl b
  end.
Definition run_hops (pl : platform) (n : nat) (ops : list hop) (b : hbuf) : outcome hbuf :=
  ofold (fun b o => do_hop pl n o b) ops b.
