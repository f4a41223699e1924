(** The collective reductions of include/NeoFOAM/core/mpi/operators.hpp. *)
From Coq Require Import Reals.
From Verif Require Import Base Value Properties_Float.

(** operators.hpp:24-36 *)
Inductive ReduceOp := Max | Min | Sum | Prod | Land | Band | Lor | Bor | Maxloc | Minloc.

(** The predefined reduction operations and datatypes of MPI named in the file. *)
Inductive MPI_Op := MPI_MAX | MPI_MIN | MPI_SUM | MPI_PROD | MPI_LAND | MPI_BAND | MPI_LOR | MPI_BOR | MPI_MAXLOC | MPI_MINLOC.
Inductive MPI_Datatype :=
  | MPI_CHAR | MPI_WCHAR | MPI_SHORT | MPI_INT | MPI_LONG | MPI_LONG_LONG | MPI_UNSIGNED_SHORT | MPI_UNSIGNED
  | MPI_UNSIGNED_LONG | MPI_UNSIGNED_LONG_LONG | MPI_FLOAT | MPI_DOUBLE | MPI_LONG_DOUBLE | MPI_CXX_BOOL
  | MPI_CXX_FLOAT_COMPLEX | MPI_CXX_DOUBLE_COMPLEX | MPI_CXX_LONG_DOUBLE_COMPLEX.

(** operators.hpp:44-72 (the default branch, for a value that is no enumerator, is not modelled). *)
Definition getOp (op : ReduceOp) : MPI_Op :=
  match op with
  | Max => MPI_MAX | Min => MPI_MIN | Sum => MPI_SUM | Prod => MPI_PROD | Land => MPI_LAND
  | Band => MPI_BAND | Lor => MPI_LOR | Bor => MPI_BOR | Maxloc => MPI_MAXLOC | Minloc => MPI_MINLOC
  end.

(** The C++ types getType distinguishes; any other type is [TOther]. *)
Inductive ctype :=
  | TChar | TWchar | TShort | TInt | TLong | TLongLong | TUShort | TUnsigned | TULong | TULongLong
  | TFloat | TDouble | TLongDouble | TBool | TComplexFloat | TComplexDouble | TComplexLongDouble | TOther.

(** operators.hpp:80-119 *)
Definition getType (t : ctype) : outcome MPI_Datatype :=
  match t with
  | TChar => Ok MPI_CHAR
  | TWchar => Ok MPI_WCHAR
  | TShort => Ok MPI_SHORT
  | TInt => Ok MPI_INT
  | TLong => Ok MPI_LONG
  | TLongLong => Ok MPI_LONG_LONG
  | TUShort => Ok MPI_UNSIGNED_SHORT
  | TUnsigned => Ok MPI_UNSIGNED
  | TULong => Ok MPI_UNSIGNED_LONG
  | TULongLong => Ok MPI_UNSIGNED_LONG_LONG
  | TFloat => Ok MPI_FLOAT
  | TDouble => Ok MPI_DOUBLE
  | TLongDouble => Ok MPI_LONG_DOUBLE
  | TBool => Ok MPI_CXX_BOOL
  | TComplexFloat => Ok MPI_CXX_FLOAT_COMPLEX
  | TComplexDouble => Ok MPI_CXX_DOUBLE_COMPLEX
  | TComplexLongDouble => Ok MPI_CXX_LONG_DOUBLE_COMPLEX
  | TOther => Exit
  end.

(** * What MPI promises (MPI 4.0, sections 6.9.1 - 6.9.6)
    Values of a datatype: integers and bool (0 or 1) as numbers; float and double
    as real numbers; long double and complex numbers as bit patterns, which the
    library combines by an unknown function. *)
Inductive mval := VInt (z : Z) | VReal (x : R) | VBits (b : Z).
Inductive mclass := CInteger (bits : Z) (sgn : bool) | CFloating (p : precision) | CLogical | CLongDouble | CComplex | CText.
(** LP64: short 16, int 32, long and long long 64 bits *)
Definition class_of (d : MPI_Datatype) : mclass :=
  match d with
  | MPI_CHAR | MPI_WCHAR => CText
  | MPI_SHORT => CInteger 16 true | MPI_INT => CInteger 32 true
  | MPI_LONG | MPI_LONG_LONG => CInteger 64 true
  | MPI_UNSIGNED_SHORT => CInteger 16 false | MPI_UNSIGNED => CInteger 32 false
  | MPI_UNSIGNED_LONG | MPI_UNSIGNED_LONG_LONG => CInteger 64 false
  | MPI_FLOAT => CFloating Float | MPI_DOUBLE => CFloating Double
  | MPI_LONG_DOUBLE => CLongDouble
  | MPI_CXX_BOOL => CLogical
  | MPI_CXX_FLOAT_COMPLEX | MPI_CXX_DOUBLE_COMPLEX | MPI_CXX_LONG_DOUBLE_COMPLEX => CComplex
  end.
(** The table of section 6.9.2: which operations accept which types; character
    types may not be reduced, MAXLOC and MINLOC need pairs. *)
Definition supported (d : MPI_Datatype) (op : MPI_Op) : bool :=
  match op, class_of d with
  | (MPI_MAX | MPI_MIN), (CInteger _ _ | CFloating _ | CLongDouble) => true
  | (MPI_SUM | MPI_PROD), (CInteger _ _ | CFloating _ | CLongDouble | CComplex) => true
  | (MPI_LAND | MPI_LOR), (CInteger _ _ | CLogical) => true
  | (MPI_BAND | MPI_BOR), CInteger _ _ => true
  | _, _ => false
  end.

(** The number in the range of the type congruent to z. *)
Definition wrap (bits : Z) (sgn : bool) (z : Z) : Z :=
  (if sgn then (z + 2 ^ (bits - 1)) mod 2 ^ bits - 2 ^ (bits - 1) else z mod 2 ^ bits)%Z.
Definition truth (b : bool) : Z := if b then 1%Z else 0%Z.
Definition int_combine (bits : Z) (sgn : bool) (op : MPI_Op) (x y : Z) : Z :=
  match op with
  | MPI_MAX => Z.max x y
  | MPI_MIN => Z.min x y
  | MPI_SUM => wrap bits sgn (x + y)
  | MPI_PROD => wrap bits sgn (x * y)
  | MPI_LAND => truth (negb (Z.eqb x 0) && negb (Z.eqb y 0))
  | MPI_LOR => truth (negb (Z.eqb x 0) || negb (Z.eqb y 0))
  | MPI_BAND => Z.land x y
  | MPI_BOR => Z.lor x y
  | MPI_MAXLOC | MPI_MINLOC => x
  end.
Definition float_combine (p : precision) (op : MPI_Op) (x y : R) : R :=
  match op with
  | MPI_MAX => Rmax x y
  | MPI_MIN => Rmin x y
  | MPI_SUM => rnd p (x + y)%R
  | MPI_PROD => rnd p (x * y)%R
  | _ => x
  end.

Section library.
(** how the library combines long double and complex numbers *)
Context (opaque : MPI_Datatype -> MPI_Op -> Z -> Z -> Z).

Definition combine (d : MPI_Datatype) (op : MPI_Op) (a b : mval) : mval :=
  match class_of d, a, b with
  | CInteger bits sgn, VInt x, VInt y => VInt (int_combine bits sgn op x y)
  | CLogical, VInt x, VInt y => VInt (int_combine 8 false op x y)
  | CFloating p, VReal x, VReal y => VReal (float_combine p op x y)
  | _, VBits x, VBits y => VBits (opaque d op x y)
  | _, _, _ => a
  end.

(** The library combines the values of the ranks in any order and with any
    bracketing (all predefined operations count as associative and commutative). *)
Inductive rtree := Rank (r : nat) | Both (l r : rtree).
Fixpoint ranks_of (t : rtree) : list nat :=
  match t with Rank r => [r] | Both l r => ranks_of l ++ ranks_of r end.
Fixpoint tree_value (f : mval -> mval -> mval) (v : nat -> mval) (t : rtree) : mval :=
  match t with Rank r => v r | Both l r => f (tree_value f v l) (tree_value f v r) end.
Definition reduced (f : mval -> mval -> mval) (vals : list mval) (res : mval) : Prop :=
  exists t, ranks_of t ≡ₚ seq 0 (length vals) /\ res = tree_value f (fun r => default (VInt 0) (vals !! r)) t.

(** MPI_Allreduce with MPI_IN_PLACE: [bufs] holds every rank's buffer of [count]
    elements before the call, the result every rank's buffer afterwards.  Elements
    are combined one by one; all ranks receive the same result.  A type the operation
    does not accept is an error, which ends the program (MPI_ERRORS_ARE_FATAL). *)
Definition MPI_Allreduce (count : nat) (d : MPI_Datatype) (op : MPI_Op) (bufs : list (list mval))
  (r : outcome (list (list mval))) : Prop :=
  if supported d op then
    exists res, length res = count /\
      (forall k x, res !! k = Some x -> reduced (combine d op) ((fun b => default (VInt 0) (b !! k)) <$> bufs) x) /\
      r = Ok ((fun _ => res) <$> bufs)
  else r = Exit.

(** operators.hpp:131-137: every rank calls allReduce(value, op, comm); [vals] are
    their values. *)
Definition allReduce (t : ctype) (op : ReduceOp) (vals : list mval) (r : outcome (list mval)) : Prop :=
  match getType t with
  | Ok d => exists r', MPI_Allreduce 1 d (getOp op) ((fun v => [v]) <$> vals) r' /\
                       r = (let! bs := r' in Ok ((fun b => default (VInt 0) (b !! 0)) <$> bs))
  | _ => r = Exit
  end.

(** operators.hpp:148-159: for a Vector the three components are the buffer
    (vector.hpp:55-69, data() and size()), of type scalar.  A Vector is three numbers. *)
Definition scalar_type (p : precision) : ctype := match p with Float => TFloat | Double => TDouble end.
Definition vector_size : nat := 3.
Definition allReduce_vector (p : precision) (op : ReduceOp) (vals : list (R * R * R)) (r : outcome (list (R * R * R))) : Prop :=
  match getType (scalar_type p) with
  | Ok d => exists r', MPI_Allreduce vector_size d (getOp op) ((fun v => [VReal v.1.1; VReal v.1.2; VReal v.2]) <$> vals) r' /\
      r = (let! bs := r' in Ok ((fun b =>
             let get k := match b !! k with Some (VReal x) => x | _ => 0%R end in (get 0, get 1, get 2)) <$> bs))
  | _ => r = Exit
  end.
End library.
