(** Explicit time stepping in any arithmetic: the part of TimeInt.v that a run
    with the forward Euler integrator uses, for every ValueType.  Nothing is
    assumed about the arithmetic, so it may round.

    Properties_Reproducible.v shows that with exact scalars these are the
    definitions of TimeInt.v. *)
From Verif Require Import Base Dict Registry Par Exec Fields Value Kernel Mesh Coeff FV Sparsity Assembly AssemblyProps Boundary Dsl.

Section any.
  Context {V : Type} {VT : ValueType V} {VU : ValueUnit V} {VG : ValueTag V}.

  (** field.hpp:271-277 with scalarMul, fieldFreeFunctions.hpp:93-100: an
      uninitialised result, assigned from *this, every element multiplied. *)
  Definition scale_any (a : Fields.field V) (s : Qc) (c : Fields.field V) (o : outcome unit) : Prop :=
    exists r0 r1 o1, Fields.new_uninit (fexec a) (fsize a) r0 /\
      Fields.assign_field r0 a r1 o1 /\
      match o1 with
      | Ok _ => Fields.kernel_on r1 (iterations 0 (fsize r1) (rmw_kernel (fun _ va => Some (vscale s va)))) c o
      | _ => o = o1
      end.
  (** field.hpp:453-458 with sub, fieldFreeFunctions.hpp:127-133 *)
  Definition minus_any (dbg : bool) (a b c : Fields.field V) (o : outcome unit) : Prop :=
    Fields.checked_binop dbg vsub (Fields.new_copy (fexec a) (fdata a)) b c o.
  (** Results of Field operations, by value. *)
  Definition fop_any (p : Fields.field V -> outcome unit -> Prop) (r : outcome (list V)) : Prop :=
    exists c o, p c o /\
      r = match o with Ok _ => Ok (fdata c) | Throw x => Throw x | Exit => Exit | UB => UB end.

  (** The fields as the operators see them: field number [n] is the solution
      [phi], whose old-time field is [old]. *)
  Definition seen (cx : ctx V) (n : nat) (phi : volField V) (old : list V) : ctx V :=
    Ctx (cx_exec cx) (cx_mesh cx) (cx_weights cx) (cx_dc cx) (cx_pattern cx) (cx_surf cx) (cx_surfV cx)
        (fun i => if decide (i = n) then phi else cx_vol cx i)
        (cx_coef cx)
        (fun i => if decide (i = n) then old else cx_old cx i)
        (cx_surfName cx) (cx_volName cx).

  Context (dbg : bool) (cx : ctx V) (n : nat) (bcs : list (patch * volBC V)).
  Notation F := (Fields.mkField (cx_exec cx)).

  (** include/NeoFOAM/timeIntegration/forwardEuler.hpp:36-56.  [old]: what
      oldTime(solutionField) returns. *)
  Definition forwardEuler_any (h : heap V) (e : expression) (dt : Qc) (phi : volField V) (old : list V)
    (r : outcome (volField V * list V)) : Prop :=
    rseq (explicitOperation_n (seen cx n phi old) h e (length (vf_int phi))) (fun source =>           (* l.43 *)
    rseq (fop_any (scale_any (F source) dt)) (fun sdt =>                                              (* l.47 *)
    rseq (fop_any (minus_any dbg (F old) (F sdt))) (fun new =>
    rseq (fop_any (Fields.assign_field (F (vf_int phi)) (F new))) (fun int' =>
    rseq (lift (vol_correctBoundaryConditions (cx_exec cx) (cx_mesh cx) bcs (with_int phi int'))) (fun phi' =>   (* l.48 *)
    rseq (fop_any (Fields.assign_field (F old) (F (vf_int phi')))) (fun old' r' =>                    (* l.55 *)
      r' = Ok (phi', old'))))))) r.

  (** include/NeoFOAM/dsl/solver.hpp:38-61, for an expression with a time
      derivative and ddtSchemes of type forwardEuler: build, then one step. *)
  Definition dsl_solve_any (fvSchemes : dict) (h : heap V) (e : expression) (dt : Qc) (phi : volField V) (old : list V)
    (r : outcome (heap V * (volField V * list V))) : Prop :=
    rseq (fun r' => r' = expr_build (seen cx n phi old) fvSchemes e h) (fun '(_, h') =>               (* l.52 *)
    rseq (forwardEuler_any h' e dt phi old) (fun s r' => r' = Ok (h', s))) r.                         (* l.55-61 *)

  (** A program's time loop: one dsl::solve per step, with the step lengths [dts]. *)
  Fixpoint time_loop_any (fvSchemes : dict) (e : expression) (dts : list Qc) (h : heap V) (phi : volField V) (old : list V)
    (r : outcome (heap V * (volField V * list V))) : Prop :=
    match dts with
    | [] => r = Ok (h, (phi, old))
    | dt :: dts' => rseq (dsl_solve_any fvSchemes h e dt phi old)
                      (fun '(h', (phi', old')) => time_loop_any fvSchemes e dts' h' phi' old') r
    end.
End any.

(** The same program on another executor. *)
Definition on_executor {V} (ex : executor) (cx : ctx V) : ctx V :=
  Ctx ex (cx_mesh cx) (cx_weights cx) (cx_dc cx) (cx_pattern cx) (cx_surf cx) (cx_surfV cx)
      (cx_vol cx) (cx_coef cx) (cx_old cx) (cx_surfName cx) (cx_volName cx).
