(** Model of NeoFOAM::Field and its free functions.

    Simplifications: memory is a list; storage addresses, allocation and
    lifetime are in FieldMem.v.  Freshly allocated elements are arbitrary values
    (the operations are relations).  Scalars are exact rationals. *)
From Verif Require Import Base Par Exec.

(** include/NeoFOAM/fields/field.hpp:417-421: size_, data_, exec_
    (size_ is the length of the list). *)
Record field (V : Type) := mkField { fexec : executor; fdata : list V }.
Arguments mkField {V}. Arguments fexec {V}. Arguments fdata {V}.

(** field.hpp:352 *)
Definition fsize {V} (a : field V) : nat := length (fdata a).

(** Run a kernel over the storage of [a]; [a'] is the field afterwards. *)
Definition kernel_on {V L} (a : field V) (ts : list (thread (list V) L))
  (a' : field V) (o : outcome unit) : Prop :=
  exists r, exec_result (fexec a) ts (fdata a) r /\
    match r with
    | Some d => a' = mkField (fexec a) d /\ o = Ok tt
    | None => o = UB
    end.

(** field.hpp:60-69: uninitialised storage of the given size. *)
Definition new_uninit {V} (e : executor) (n : nat) (a' : field V) : Prop :=
  fexec a' = e /\ fsize a' = n.

(** The default argument of the free functions below is {0,0}
    (fieldFreeFunctions.hpp:29, 53, 79); "end == 0" selects the whole field
    (l.32-35, 57-60, 83-86). *)
Definition default_range : nat * nat := (0, 0).
Definition eff_end (stop size : nat) : nat := if Nat.eqb stop 0 then size else stop.

(** fieldFreeFunctions.hpp:28-40 *)
Definition map_field {V} (a : field V) (inner : nat -> V) (range : nat * nat)
  (a' : field V) (o : outcome unit) : Prop :=
  kernel_on a (iterations (fst range) (eff_end (snd range) (fsize a))
                 (set_kernel (fun i => Some (inner i)))) a' o.

(** fieldFreeFunctions.hpp:49-65 *)
Definition fill {V} (a : field V) (v : V) (range : nat * nat)
  (a' : field V) (o : outcome unit) : Prop :=
  kernel_on a (iterations (fst range) (eff_end (snd range) (fsize a))
                 (set_kernel (fun _ => Some v))) a' o.

(** fieldFreeFunctions.hpp:75-91; [b] is a view, i.e. a list; b[i] out of
    bounds is undefined behaviour. *)
Definition setField {V} (a : field V) (b : list V) (range : nat * nat)
  (a' : field V) (o : outcome unit) : Prop :=
  kernel_on a (iterations (fst range) (eff_end (snd range) (fsize a))
                 (set_kernel (fun i => b !! i))) a' o.

(** field.hpp:99-108: allocate, then fill. *)
Definition new_value {V} (e : executor) (n : nat) (v : V)
  (a' : field V) (o : outcome unit) : Prop :=
  exists a0, new_uninit e n a0 /\ fill a0 v default_range a' o.

(** field.hpp:78-91, 115, 122-124, 130: construct by deep copy of host or
    executor memory. *)
Definition new_copy {V} (e : executor) (d : list V) : field V := mkField e d.

(** field.hpp:167-175 *)
Definition copyToExecutor {V} (a : field V) (dst : executor) : field V :=
  if exec_eqb dst (fexec a) then new_copy (fexec a) (fdata a)
  else new_copy dst (fdata a).

(** field.hpp:181 *)
Definition copyToHost {V} (a : field V) : field V := copyToExecutor a SerialExecutor.

(** field.hpp:308-328: realloc keeps the old contents up to the smaller size,
    the rest is uninitialised; alloc gives uninitialised storage. *)
Definition resize {V} (a : field V) (n : nat) (a' : field V) : Prop :=
  fexec a' = fexec a /\ fsize a' = n /\
  (fdata a = [] \/ firstn (Nat.min n (fsize a)) (fdata a') = firstn n (fdata a)).

(** field.hpp:209 *)
Definition assign_value {V} (a : field V) (v : V) (a' : field V) (o : outcome unit) : Prop :=
  fill a v default_range a' o.

(** field.hpp:217-225 *)
Definition assign_field {V} (a rhs : field V) (a' : field V) (o : outcome unit) : Prop :=
  if exec_eqb (fexec a) (fexec rhs) then
    if Nat.eqb (fsize a) (fsize rhs) then setField a (fdata rhs) default_range a' o
    else exists a1, resize a (fsize rhs) a1 /\ setField a1 (fdata rhs) default_range a' o
  else a' = a /\ o = Exit.

(** Host memory (Serial, CPU) versus device memory (GPU): an access to the
    other space is undefined behaviour. *)
Definition same_space (a b : executor) : bool :=
  match a, b with
  | GPUExecutor, GPUExecutor => true
  | GPUExecutor, _ => false
  | _, GPUExecutor => false
  | _, _ => true
  end.

(** fieldFreeFunctions.hpp:104-115; the length check is always compiled in
    (helpers/exceptions.hpp:96-102).  [b] is another field. *)
Definition fieldBinaryOp {V} (a b : field V) (op : V -> V -> V)
  (a' : field V) (o : outcome unit) : Prop :=
  if Nat.eqb (fsize a) (fsize b) then
    if same_space (fexec a) (fexec b) then
      kernel_on a (iterations 0 (fsize a)
        (rmw_kernel (fun i va => match fdata b !! i with
                                 | Some vb => Some (op va vb)
                                 | None => None
                                 end))) a' o
    else o = UB
  else a' = a /\ o = Throw DimensionMismatch.

(** Same, with [b] the field [a] itself (a += a): viewB[i] is viewA[i]. *)
Definition fieldBinaryOp_self {V} (a : field V) (op : V -> V -> V)
  (a' : field V) (o : outcome unit) : Prop :=
  kernel_on a (iterations 0 (fsize a) (rmw_kernel (fun _ va => Some (op va va)))) a' o.

(** fieldFreeFunctions.hpp:93-100 *)
Definition scalarMul (a : field Qc) (s : Qc) (a' : field Qc) (o : outcome unit) : Prop :=
  kernel_on a (iterations 0 (fsize a) (rmw_kernel (fun _ va => Some (va * s)%Qc))) a' o.

(** field.hpp:427-431; NF_DEBUG_ASSERT is compiled in debug builds only. *)
Definition validateOtherField {V} (dbg : bool) (a b : field V) : bool :=
  negb dbg || (Nat.eqb (fsize a) (fsize b) && exec_eqb (fexec a) (fexec b)).

Definition checked_binop {V} (dbg : bool) (op : V -> V -> V) (a b : field V)
  (a' : field V) (o : outcome unit) : Prop :=
  if validateOtherField dbg a b then fieldBinaryOp a b op a' o
  else a' = a /\ o = Exit.

(** field.hpp:232-237 with add, fieldFreeFunctions.hpp:118-124 *)
Definition plus_assign dbg (a b : field Qc) := checked_binop dbg Qcplus a b.
(** field.hpp:244-249 with sub, fieldFreeFunctions.hpp:127-133 *)
Definition minus_assign dbg (a b : field Qc) := checked_binop dbg Qcminus a b.
(** field.hpp:284-290 with mul, fieldFreeFunctions.hpp:135-141 *)
Definition mult_assign dbg (a b : field Qc) := checked_binop dbg Qcmult a b.
(** field.hpp:297-302 *)
Definition scale_assign (a : field Qc) (s : Qc) := scalarMul a s.

(** field.hpp:440-445: copy, then +=. *)
Definition plus dbg (a b c : field Qc) (o : outcome unit) : Prop :=
  plus_assign dbg (new_copy (fexec a) (fdata a)) b c o.
(** field.hpp:453-458 *)
Definition minus dbg (a b c : field Qc) (o : outcome unit) : Prop :=
  minus_assign dbg (new_copy (fexec a) (fdata a)) b c o.
(** field.hpp:256-263: uninitialised result, assigned from *this, multiplied. *)
Definition mult dbg (a b c : field Qc) (o : outcome unit) : Prop :=
  if validateOtherField dbg a b then
    exists r0 r1 o1, new_uninit (fexec a) (fsize a) r0 /\
      assign_field r0 a r1 o1 /\
      match o1 with
      | Ok _ => fieldBinaryOp r1 b Qcmult c o
      | _ => o = o1
      end
  else o = Exit.
(** field.hpp:271-277 *)
Definition scale (a : field Qc) (s : Qc) (c : field Qc) (o : outcome unit) : Prop :=
  exists r0 r1 o1, new_uninit (fexec a) (fsize a) r0 /\
    assign_field r0 a r1 o1 /\
    match o1 with
    | Ok _ => scalarMul r1 s c o
    | _ => o = o1
    end.

(** fieldFreeFunctions.hpp:155-168 *)
Fixpoint all_equal (l : list Qc) (v : Qc) : bool :=
  match l with
  | [] => true
  | x :: l' => if Qc_eq_dec x v then all_equal l' v else false
  end.
Definition equal_value (a : field Qc) (v : Qc) : bool := all_equal (fdata (copyToHost a)) v.

(** fieldFreeFunctions.hpp:170-190 *)
Fixpoint equal_loop (l1 l2 : list Qc) (n : nat) (i : nat) : bool :=
  match n with
  | 0 => true
  | S n' => match l1 !! i, l2 !! i with
            | Some x, Some y => if Qc_eq_dec x y then equal_loop l1 l2 n' (S i) else false
            | _, _ => false   (* not reached: both have the same size *)
            end
  end.
Definition equal_field (a b : field Qc) : bool :=
  let l1 := fdata (copyToHost a) in
  let l2 := fdata (copyToHost b) in
  if Nat.eqb (length l1) (length l2) then equal_loop l1 l2 (length l1) 0 else false.
