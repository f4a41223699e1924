(** The SUNDIALS vectors of the Runge-Kutta integrator as objects.
    Models include/NeoFOAM/timeIntegration/sundials.hpp:79-176 (fieldToSunNVector,
    sunNVectorToField) and 259-end (SKVectorSerial, SKVectorHostDefault,
    SKVectorDefault, SKVector).

    External (sundials::kokkos::Vector): a KVector owns the N_Vector it converts
    to, which moves with it and dies with it; copying a KVector makes another
    N_Vector, with unspecified contents here; a KVector moved from owns none.
    The contents of a new N_Vector are unspecified.

    Simplifications: an access through a vector type of another execution space
    than the N_Vector's is undefined behaviour (also in builds where two of the
    spaces coincide); copying an SKVector that was moved from is taken as undefined;
    scalars are exact rationals. *)
From Verif Require Import Base Par Exec Fields Value Kernel Dsl TimeInt.

(** An N_Vector: alive or deleted, its execution space, its elements. *)
Record nvec := NVec { nv_live : bool; nv_space : executor; nv_data : list Qc }.
(** kvector_: default constructed, owning an N_Vector, or moved from. *)
Inductive kvector := KDefault | KOwns (v : nat) | KMovedFrom.
(** SKVector (l.372-end): the alternative its variant holds, kvector_ and the raw
    pointer svector_ ([None]: null, or to the N_Vector of a default KVector, which
    has no contents). *)
Record skvector := SkVec { sk_space : executor; sk_kv : kvector; sk_sv : option nat }.
Record skWorld := SkWorld { sw_objs : list (option skvector); sw_vecs : list nvec }.
Definition sk_at (w : skWorld) (k : nat) : option skvector := mjoin (sw_objs w !! k).

(** Destroying a kvector_ deletes its N_Vector. *)
Definition delete_vec (v : nat) (l : list nvec) : list nvec := alter (fun x => NVec false (nv_space x) (nv_data x)) v l.
Definition drop_kv (kv : kvector) (l : list nvec) : list nvec :=
  match kv with KOwns v => delete_vec v l | _ => l end.

Inductive skOp :=
| SkNew | SkCopy (k : nat) | SkMove (k : nat) | SkFree (k : nat)
| SkSetExecutor (k : nat) (e : executor) | SkInit (k size : nat)
| SkFrom (k : nat) (e : executor) (field : list Qc)    (* fieldToSunNVector(field, k.sunNVector()) *)
.

(** The N_Vector a handle gives access to, for a field on executor [e]. *)
Definition sk_access (w : skWorld) (k : nat) (e : executor) : outcome (nat * nvec) :=
  match sk_at w k with
  | Some o =>
      match sk_sv o with
      | Some v => match sw_vecs w !! v with
                  | Some x => if nv_live x && exec_eqb (nv_space x) e then Ok (v, x) else UB
                  | None => UB
                  end
      | None => UB
      end
  | None => UB
  end.

Definition sk_step (op : skOp) (w : skWorld) (r : outcome skWorld) : Prop :=
  match op with
  (* l.385: the host default alternative *)
  | SkNew => r = Ok (SkWorld (sw_objs w ++ [Some (SkVec CPUExecutor KDefault None)]) (sw_vecs w))
  (* l.396 with l.271-272, 309-310, 344-345: kvector_(other.kvector_), svector_(other.kvector_), the
     latter the N_Vector of the *other* object *)
  | SkCopy k =>
      match sk_at w k with
      | Some o =>
          match sk_kv o with
          | KOwns v =>
              match sw_vecs w !! v with
              | Some x => exists data, length data = length (nv_data x) /\
                  r = Ok (SkWorld (sw_objs w ++ [Some (SkVec (sk_space o) (KOwns (length (sw_vecs w))) (Some v))])
                                  (sw_vecs w ++ [NVec true (nv_space x) data]))
              | None => r = UB
              end
          | KDefault => r = Ok (SkWorld (sw_objs w ++ [Some (SkVec (sk_space o) KDefault None)]) (sw_vecs w))
          | KMovedFrom => r = UB
          end
      | None => r = UB
      end
  (* l.406 with l.273-274, 311-312, 346-347: moving a raw pointer copies it *)
  | SkMove k =>
      match sk_at w k with
      | Some o => r = Ok (SkWorld (<[k := Some (SkVec (sk_space o) KMovedFrom (sk_sv o))]> (sw_objs w) ++
                                   [Some (SkVec (sk_space o) (sk_kv o) (sk_sv o))]) (sw_vecs w))
      | None => r = UB
      end
  | SkFree k =>
      match sk_at w k with
      | Some o => r = Ok (SkWorld (<[k := None]> (sw_objs w)) (drop_kv (sk_kv o) (sw_vecs w)))
      | None => r = UB
      end
  (* l.417-440: emplace destroys the old alternative *)
  | SkSetExecutor k e =>
      match sk_at w k with
      | Some o => r = Ok (SkWorld (<[k := Some (SkVec e KDefault None)]> (sw_objs w)) (drop_kv (sk_kv o) (sw_vecs w)))
      | None => r = UB
      end
  (* l.447-452 with l.280-284, 315-319, 350-354 *)
  | SkInit k size =>
      match sk_at w k with
      | Some o => exists data, length data = size /\
          r = Ok (SkWorld (<[k := Some (SkVec (sk_space o) (KOwns (length (sw_vecs w))) (Some (length (sw_vecs w))))]> (sw_objs w))
                          (drop_kv (sk_kv o) (sw_vecs w) ++ [NVec true (sk_space o) data]))
      | None => r = UB
      end
  (* l.85-93, 102-126; [length field] elements are written, without a check *)
  | SkFrom k e field =>
      match sk_access w k e with
      | Ok (v, x) =>
          rseq (fop (Fields.kernel_on (Fields.mkField e (nv_data x)) (iterations 0 (length field) (set_kernel (fun i => field !! i)))))
            (fun data r' => r' = Ok (SkWorld (sw_objs w) (<[v := NVec true (nv_space x) data]> (sw_vecs w)))) r
      | _ => r = UB
      end
  end.
(** l.136-176: sunNVectorToField(k.sunNVector(), field): the field's new values. *)
Definition sk_read (w : skWorld) (k : nat) (e : executor) (field : list Qc) (r : outcome (list Qc)) : Prop :=
  match sk_access w k e with
  | Ok (_, x) => fop (Fields.kernel_on (Fields.mkField e field) (iterations 0 (length field) (set_kernel (fun i => nv_data x !! i)))) r
  | _ => r = UB
  end.

Fixpoint sk_run (ops : list skOp) (w : skWorld) (r : outcome skWorld) : Prop :=
  match ops with
  | [] => r = Ok w
  | op :: ops' => rseq (sk_step op w) (sk_run ops') r
  end.
Definition sk_empty : skWorld := SkWorld [] [].
