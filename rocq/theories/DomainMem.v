(** Storage of NeoFOAM::DomainField and BoundaryFields: seven Field members each,
    on the heap of FieldMem.  Models include/NeoFOAM/fields/domainField.hpp and
    boundaryFields.hpp: constructors, copy, move, assignment, destruction.

    The arrays of one domain field are, in this order,
      0 internalField_, 1 value_, 2 refValue_, 3 valueFraction_, 4 refGrad_,
      5 boundaryTypes_, 6 offset_
    (domainField.hpp:140-143, boundaryFields.hpp:142-153).  Their element types
    differ (ValueType, scalar, int, localIdx); [V] stands for all of them.  Array
    [k] of domain field [x] is the Field variable [7 x + k] of FieldMem. *)
From stdpp Require Import gmap.
From Verif Require Import Base Exec FieldMem.

Notation part x k := (7 * x + k) (only parsing).

(** The members that are not arrays: DomainField::exec_, BoundaryFields::exec_,
    nBoundaries_, nBoundaryFaces_. *)
Record dtags := DTags { t_exec : executor; t_bexec : executor; t_nB : nat; t_nF : nat }.

Section dmem.
  Context {V : Type} (alloc0 realloc0 : bool).

  Record dmem := DMem { d_mem : mem V; d_tags : gmap nat dtags }.
  Definition empty_dmem : dmem := DMem empty_mem ∅.

  Inductive dop :=
  (** domainField.hpp:38-41, 51-60 with boundaryFields.hpp:59-64: [cells],
      [vals] ... what the arrays hold (uninitialised ones hold anything), the
      offsets a std::vector of [length types + 1] entries. *)
  | DNew (x : nat) (e : executor) (cells vals refs fracs grads types offs : list V)
  (** domainField.hpp:43-49: DomainField(exec, y.internalField(), y.boundaryField()) *)
  | DCopyTo (x : nat) (e : executor) (y : nat)
  (** domainField.hpp:63-65 *)
  | DCopy (x y : nat)
  (** domainField.hpp:68-71: BoundaryFields declares a copy constructor and no
      move constructor, so the boundary arrays are copied. *)
  | DMove (x y : nat)
  (** domainField.hpp:74-79 and 82-87 (Field declares no move assignment, so both
      copy) with the implicit BoundaryFields::operator=, member by member;
      [junk k i]: what a grown array happens to hold before it is overwritten. *)
  | DAssign (x y : nat) (junk : nat -> nat -> V)
  | DDestroy (x : nat)
  (** a kernel writing through the view of one of the arrays *)
  | DWrite (x k : nat) (f : nat -> V -> V).

  (** Field::exec() and Field::size() of a member *)
  Definition exec_of (m : mem V) (z : nat) : executor :=
    match objs m !! z with Some o => o_exec o | None => SerialExecutor end.
  Definition size_of (m : mem V) (z : nat) : nat :=
    match objs m !! z with Some o => o_size o | None => 0 end.

  (** The Field operations the member-wise definitions amount to, in member order
      (the destructor's order is reversed). *)
  Definition field_ops (m : mem V) (c : dop) : list (op V) :=
    match c with
    | DNew x e cells vals refs fracs grads types offs =>
        imap (fun k d => New (part x k) e d) [cells; vals; refs; fracs; grads; types; offs]
    | DCopyTo x e y => map (fun k => CopyTo (part x k) e (part y k)) (seq 0 7)
    | DCopy x y => map (fun k => CopyTo (part x k) (exec_of m (part y k)) (part y k)) (seq 0 7)
    | DMove x y => Move (part x 0) (part y 0) ::
        map (fun k => CopyTo (part x k) (exec_of m (part y k)) (part y k)) (seq 1 6)
    | DAssign x y junk =>
        map (fun k => Assign (part x k) (part y k) (map (junk k) (seq 0 (size_of m (part y k))))) (seq 0 7)
    | DDestroy x => map (fun k => Destroy (part x k)) (rev (seq 0 7))
    | DWrite x k f => if Nat.ltb k 7 then [MapAll (part x k) f] else []
    end.

  (** The other members. *)
  Definition tags_step (t : gmap nat dtags) (c : dop) : gmap nat dtags :=
    match c with
    | DNew x e _ vals _ _ _ _ offs => <[x := DTags e e (length offs - 1) (length vals)]> t
    | DCopyTo x e y =>
        match t !! y with Some ty => <[x := DTags e (t_bexec ty) (t_nB ty) (t_nF ty)]> t | None => t end
    | DCopy x y | DMove x y => match t !! y with Some ty => <[x := ty]> t | None => t end
    | DAssign x y _ =>
        match t !! x, t !! y with
        | Some tx, Some ty => <[x := DTags (t_exec tx) (t_bexec ty) (t_nB ty) (t_nF ty)]> t
        | _, _ => t
        end
    | DDestroy x => delete x t
    | DWrite _ _ _ => t
    end.

  (** A C++ program constructs only objects that do not exist and uses only ones
      that do; anything else leaves the state alone. *)
  Definition well_scoped (live : nat -> bool) (c : dop) : bool :=
    match c with
    | DNew x _ _ _ _ _ _ _ _ => negb (live x)
    | DCopyTo x _ y | DCopy x y | DMove x y => negb (live x) && live y
    | DAssign x y _ => live x && live y
    | DDestroy x | DWrite x _ _ => live x
    end.

  Definition dstep (m : dmem) (c : dop) : outcome dmem :=
    if well_scoped (fun x => bool_decide (is_Some (d_tags m !! x))) c then
      let! m' := run_ops alloc0 realloc0 (d_mem m) (field_ops (d_mem m) c) in
      Ok (DMem m' (tags_step (d_tags m) c))
    else Ok m.

  Fixpoint drun (m : dmem) (h : list dop) : outcome dmem :=
    match h with
    | [] => Ok m
    | c :: h' => let! m' := dstep m c in drun m' h'
    end.

  (** What a program observes of array [k] of domain field [x]: its executor and
      its elements ([None]: undefined). *)
  Definition dobserve (m : dmem) (x k : nat) : option (executor * option (list V)) :=
    observe (d_mem m) (part x k).
End dmem.
Arguments dmem V : clear implicits.
Arguments dop V : clear implicits.
