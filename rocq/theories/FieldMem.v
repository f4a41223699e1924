(** Storage ownership of NeoFOAM::Field: a heap of blocks and Field objects that
    hold a pointer.  Models include/NeoFOAM/fields/field.hpp constructors,
    destructor, operator= and resize down to alloc / realloc / free.

    [alloc0] / [realloc0] say whether alloc(0) / realloc(p,0) of the executor
    (include/NeoFOAM/core/executor/serialExecutor.hpp:50-57, i.e.
    Kokkos::kokkos_malloc / kokkos_realloc / kokkos_free) return a block
    ([true]) or a null pointer ([false]).  Kokkos' documented interface leaves
    this open, so the theorems say what depends on it.
    Uninitialised contents are supplied by the history ("junk"). *)
From stdpp Require Import gmap.
From Verif Require Import Base Exec.

(** Specification state: each live field has an executor and a value. *)
Notation vstate V := (gmap nat (executor * list V)).

Section mem.
  Context {V : Type}.
  Context (alloc0 realloc0 : bool).

  Notation addr := nat (only parsing).
  Notation var := nat (only parsing).

  (** field.hpp:417-421 *)
  Record fobj := mkObj { o_exec : executor; o_size : nat; o_ptr : option addr }.

  Record mem := mkMem {
    heap : gmap addr (list V);   (* live allocations *)
    next : addr;                 (* fresh address supply *)
    objs : gmap var fobj         (* live Field objects *)
  }.

  Definition empty_mem : mem := mkMem ∅ 0 ∅.

  (** exec.alloc(size * sizeof(V)); [d] is what the new block happens to hold. *)
  Definition do_alloc (m : mem) (d : list V) : mem * option addr :=
    if Nat.eqb (length d) 0 && negb alloc0 then (m, None)
    else (mkMem (<[next m := d]> (heap m)) (S (next m)) (objs m), Some (next m)).

  (** exec.free(ptr): freeing a dead block is undefined behaviour; null is fine. *)
  Definition do_free (m : mem) (p : option addr) : outcome mem :=
    match p with
    | None => Ok m
    | Some a => match heap m !! a with
                | Some _ => Ok (mkMem (delete a (heap m)) (next m) (objs m))
                | None => UB
                end
    end.

  (** exec.realloc(ptr, n): new block holding the old contents up to the smaller
      size, then junk; the old block is released. *)
  Definition do_realloc (m : mem) (p : option addr) (n : nat) (junk : list V)
    : outcome (mem * option addr) :=
    match p with
    | None => UB
    | Some a =>
        match heap m !! a with
        | None => UB
        | Some d =>
            let h := delete a (heap m) in
            if Nat.eqb n 0 && negb realloc0 then Ok (mkMem h (next m) (objs m), None)
            else Ok (mkMem (<[next m := take n (d ++ junk)]> h) (S (next m)) (objs m),
                     Some (next m))
        end
    end.

  (** Contents seen through the object: reading [size] elements from [ptr];
      undefined if the block is dead or too small. *)
  Definition read_obj (m : mem) (o : fobj) : option (list V) :=
    if Nat.eqb (o_size o) 0 then Some []
    else match o_ptr o with
         | None => None
         | Some a => match heap m !! a with
                     | Some d => if Nat.leb (o_size o) (length d)
                                 then Some (take (o_size o) d) else None
                     | None => None
                     end
         end.

  (** Store [d] (of the object's size) through the object's pointer. *)
  Definition write_obj (m : mem) (o : fobj) (d : list V) : outcome mem :=
    if Nat.eqb (o_size o) 0 then Ok m
    else match o_ptr o with
         | None => UB
         | Some a => match heap m !! a with
                     | Some old => if Nat.leb (o_size o) (length old)
                                   then Ok (mkMem (<[a := d ++ drop (o_size o) old]> (heap m))
                                              (next m) (objs m))
                                   else UB
                     | None => UB
                     end
         end.

  Definition set_obj (m : mem) (x : var) (o : fobj) : mem :=
    mkMem (heap m) (next m) (<[x := o]> (objs m)).

  Inductive op :=
  | New (x : var) (e : executor) (junk : list V)  (* Field(exec, size): l.60-69 *)
  | CopyTo (x : var) (e : executor) (y : var)     (* Field(exec, in): l.78-91, 122-124; copy ctor l.130 with e = exec of y *)
  | Move (x y : var)                              (* move ctor: l.136-140 *)
  | Destroy (x : var)                             (* l.145-149 *)
  | Assign (x y : var) (junk : list V)            (* l.217-225 *)
  | Resize (x : var) (n : nat) (junk : list V)    (* l.308-328 *)
  | MapAll (x : var) (f : nat -> V -> V).         (* write through the view: any own-slot kernel over the whole field *)

  (** field.hpp:308-328 *)
  Definition do_resize (m : mem) (o : fobj) (n : nat) (junk : list V)
    : outcome (mem * fobj) :=
    if Nat.eqb (o_size o) 0 then
      let '(m', p) := do_alloc m (take n junk) in
      Ok (m', mkObj (o_exec o) n p)
    else
      let! (m', p) := do_realloc m (o_ptr o) n junk in
      Ok (m', mkObj (o_exec o) n p).

  (** One operation.  An operation that names a dead variable, redefines a live
      one, or supplies too little junk for the new elements is not a C++ program
      and leaves the state alone. *)
  Definition step (m : mem) (c : op) : outcome mem :=
    match c with
    | New x e junk =>
        match objs m !! x with
        | Some _ => Ok m
        | None =>
            let '(m', p) := do_alloc m junk in
            Ok (set_obj m' x (mkObj e (length junk) p))
        end
    | CopyTo x e y =>
        match objs m !! x, objs m !! y with
        | None, Some oy =>
            match read_obj m oy with
            | None => UB
            | Some d =>
                let '(m', p) := do_alloc m d in
                Ok (set_obj m' x (mkObj e (o_size oy) p))
            end
        | _, _ => Ok m
        end
    | Move x y =>
        match objs m !! x, objs m !! y with
        | None, Some oy =>
            Ok (set_obj (set_obj m x oy) y (mkObj (o_exec oy) 0 None))
        | _, _ => Ok m
        end
    | Destroy x =>
        match objs m !! x with
        | Some o =>
            let! m' := do_free m (o_ptr o) in
            Ok (mkMem (heap m') (next m') (delete x (objs m')))
        | None => Ok m
        end
    | Assign x y junk =>
        match objs m !! x, objs m !! y with
        | Some ox, Some oy =>
            if exec_eqb (o_exec ox) (o_exec oy) then
              if Nat.eqb (o_size ox) (o_size oy) then
                match read_obj m oy with
                | None => UB
                | Some d => write_obj m ox d
                end
              else
                if Nat.leb (o_size oy) (length junk) then
                  let! (m1, ox1) := do_resize m ox (o_size oy) junk in
                  let m2 := set_obj m1 x ox1 in
                  match read_obj m2 oy with
                  | None => UB
                  | Some d => write_obj m2 ox1 d
                  end
                else Ok m
            else Exit
        | _, _ => Ok m
        end
    | Resize x n junk =>
        match objs m !! x with
        | Some o =>
            if Nat.leb n (length junk) then
              let! (m1, o1) := do_resize m o n junk in
              Ok (set_obj m1 x o1)
            else Ok m
        | None => Ok m
        end
    | MapAll x f =>
        match objs m !! x with
        | Some o =>
            match read_obj m o with
            | None => UB
            | Some d => write_obj m o (imap f d)
            end
        | None => Ok m
        end
    end.

  Fixpoint run_ops (m : mem) (h : list op) : outcome mem :=
    match h with
    | [] => Ok m
    | c :: h' => let! m' := step m c in run_ops m' h'
    end.

  (** * Specification: fields as plain values. *)
  Definition spec_step (s : vstate V) (c : op) : option (vstate V) :=   (* None: process exit *)
    match c with
    | New x e junk => if s !! x then Some s else Some (<[x := (e, junk)]> s)
    | CopyTo x e y =>
        match s !! x, s !! y with
        | None, Some (_, d) => Some (<[x := (e, d)]> s)
        | _, _ => Some s
        end
    | Move x y =>
        match s !! x, s !! y with
        | None, Some (e, d) => Some (<[y := (e, [])]> (<[x := (e, d)]> s))
        | _, _ => Some s
        end
    | Destroy x => Some (delete x s)
    | Assign x y junk =>
        match s !! x, s !! y with
        | Some (ex, dx), Some (ey, dy) =>
            if exec_eqb ex ey then
              if Nat.eqb (length dx) (length dy) || Nat.leb (length dy) (length junk)
              then Some (<[x := (ex, dy)]> s) else Some s
            else None
        | _, _ => Some s
        end
    | Resize x n junk =>
        match s !! x with
        | Some (e, d) => if Nat.leb n (length junk)
                         then Some (<[x := (e, take n (d ++ junk))]> s) else Some s
        | None => Some s
        end
    | MapAll x f =>
        match s !! x with
        | Some (e, d) => Some (<[x := (e, imap f d)]> s)
        | None => Some s
        end
    end.

  Fixpoint spec_run (s : vstate V) (h : list op) : option (vstate V) :=
    match h with
    | [] => Some s
    | c :: h' => match spec_step s c with
                 | Some s' => spec_run s' h'
                 | None => None
                 end
    end.

  (** What a program observes of field [x] in memory [m]. *)
  Definition observe (m : mem) (x : var) : option (executor * option (list V)) :=
    match objs m !! x with
    | Some o => Some (o_exec o, read_obj m o)
    | None => None
    end.

  Definition no_leak (m : mem) : Prop :=
    forall a, is_Some (heap m !! a) ->
      exists x o, objs m !! x = Some o /\ o_ptr o = Some a.
End mem.
Arguments mem V : clear implicits.
Arguments op V : clear implicits.
