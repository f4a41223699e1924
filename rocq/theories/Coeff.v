(** dsl::Coeff: a scalar, optionally times a field. *)
From Verif Require Import Base.

(** include/NeoFOAM/dsl/coeff.hpp:21-54: coeff_, view_/hasView_. *)
Record Coeff := MkCoeff { coeff_ : Qc; view_ : option (list Qc) }.

(** src/dsl/coeff.cpp:9-17 *)
Definition coeff_default : Coeff := MkCoeff 1 None.
Definition coeff_scalar (value : Qc) : Coeff := MkCoeff value None.
Definition coeff_scalar_field (c : Qc) (field : list Qc) : Coeff := MkCoeff c (Some field).
Definition coeff_field (field : list Qc) : Coeff := MkCoeff 1 (Some field).

(** coeff.hpp:35 operator[]; None = out-of-bounds read of the view. *)
Definition coeff_at (c : Coeff) (i : nat) : option Qc :=
  match view_ c with
  | Some l => match l !! i with Some x => Some (x * coeff_ c)%Qc | None => None end
  | None => Some (coeff_ c)
  end.

(** coeff.cpp:23-27 *)
Definition coeff_mul_scalar (c : Coeff) (rhs : Qc) : Coeff := MkCoeff (coeff_ c * rhs) (view_ c).

(** coeff.cpp:29-44 *)
Definition coeff_mul_assign (c rhs : Coeff) : outcome Coeff :=
  match view_ c, view_ rhs with
  | Some _, Some _ => Exit
  | None, Some v => Ok (coeff_mul_scalar (MkCoeff (coeff_ c) (Some v)) (coeff_ rhs))
  | _, None => Ok (coeff_mul_scalar c (coeff_ rhs))
  end.

(** coeff.hpp:57-62 *)
Definition coeff_mul (lhs rhs : Coeff) : outcome Coeff := coeff_mul_assign lhs rhs.

(** coeff.cpp:48-65 detail::toField (the serial value of the element-wise
    kernel; own-slot kernels are schedule independent, see C05): resize and fill
    with 1 then multiply, or a single value. *)
Definition coeff_toField (c : Coeff) : option (list Qc) :=
  match view_ c with
  | Some l => mapM (fun i => match coeff_at c i with Some x => Some (1 * x)%Qc | None => None end)
                   (seq 0 (length l))
  | None => match coeff_at c 0 with Some x => Some [x] | None => None end
  end.
