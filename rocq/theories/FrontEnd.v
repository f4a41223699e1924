(** The functions users call to make operators: dsl/implicit.hpp,
    dsl/explicit.hpp, src/dsl/explicit.cpp.  A program declares operators and
    combines them to an equation (Dsl.v).

    dsl/ddt.hpp (temporal::Ddt) is not modelled: it calls an OperatorMixin
    constructor that does not exist and cannot be instantiated. *)
From Verif Require Import Base Dict Registry Par Exec Value Kernel Mesh Coeff FV Sparsity Assembly Dsl.

(** Fields are named by their number in the context. *)
Inductive builder :=
| ImpDdt (phi : nat)                 (* imp::ddt(phi)              *)
| ImpSource (coef phi : nat)         (* imp::source(coef, phi)     *)
| ImpDiv (flux phi : nat)            (* imp::div(flux, phi)        *)
| ImpLaplacian (gamma phi : nat)     (* imp::laplacian(gamma, phi) *)
| ExpDiv (flux phi : nat)            (* exp::div(flux, phi)        *)
| ExpIntegrate (flux : nat)          (* exp::div(flux)             *)
| ExpSource (coef phi : nat)         (* exp::source(coef, phi)     *)
| ExpLaplacian (gamma phi : nat).    (* SpatialOperator<scalar>(LaplacianOperator(Explicit, gamma, phi)):
                                        there is no exp::laplacian, users call the constructor
                                        (laplacianOperator.hpp:115-119) *)

Section frontend.
  Context {V : Type}.

  (** dsl/implicit.hpp:27-56, src/dsl/explicit.cpp:10-28.  The constructors set
      the coefficient to 1 (divOperator.hpp:120-126, laplacianOperator.hpp:115-121,
      surfaceIntegrate.hpp:38-39, sourceTerm.cpp:8-16, ddtOperator.cpp:11-14) and
      leave the strategy empty. *)
  Definition builder_spatial (b : builder) : option (spatialOp V) :=
    match b with
    | ImpDdt _ => None
    | ImpSource c p => Some (SpatialOp (SourceTerm c p) Implicit (coeff_scalar 1%Qc))
    | ImpDiv f p => Some (SpatialOp (DivOperator f p None) Implicit (coeff_scalar 1%Qc))
    | ImpLaplacian g p => Some (SpatialOp (LaplacianOperator g p false) Implicit (coeff_scalar 1%Qc))
    | ExpDiv f p => Some (SpatialOp (DivOperator f p None) Explicit (coeff_scalar 1%Qc))
    | ExpIntegrate f => Some (SpatialOp (SurfaceIntegrate f) Explicit (coeff_scalar 1%Qc))
    | ExpSource c p => Some (SpatialOp (SourceTerm c p) Explicit (coeff_scalar 1%Qc))
    | ExpLaplacian g p => Some (SpatialOp (LaplacianOperator g p false) Explicit (coeff_scalar 1%Qc))
    end.
  Definition builder_temporal (b : builder) : option temporalOp :=
    match b with ImpDdt p => Some (TemporalOp p Implicit (coeff_scalar 1%Qc)) | _ => None end.

  (** One call; the operator it returns is a new object. *)
  Definition build_call (b : builder) : M (V := V) operand :=
    match builder_spatial b, builder_temporal b with
    | Some o, _ => bind (allocS o) (fun p => ret (OpS p))
    | None, Some o => bind (allocT o) (fun p => ret (OpT p))
    | None, None => fun _ => UB
    end.
  Fixpoint declare (bs : list builder) : M (V := V) (list operand) :=
    match bs with
    | [] => ret []
    | b :: bs' => bind (build_call b) (fun o => bind (declare bs') (fun os => ret (o :: os)))
    end.
  (** A program that declares the operators [bs] and then forms [eqn]; SVar i is
      the i-th spatial operator declared, TVar i the i-th time derivative. *)
  Definition program (bs : list builder) (eqn : equation) : outcome (expression * heap V) :=
    bind (declare bs) (fun _ => eval_equation eqn) (Heap [] []).
  (** The objects after the declarations. *)
  Definition declared (bs : list builder) : heap V := Heap (omap builder_spatial bs) (omap builder_temporal bs).
End frontend.

Lemma declare_heap {V} (bs : list builder) : forall h : heap V, exists os,
  declare bs h = Ok (os, Heap (h_spatial h ++ omap builder_spatial bs) (h_temporal h ++ omap builder_temporal bs)) /\
  length os = length bs.
Proof.
  induction bs as [|b bs IH]; intros [s t].
  - exists []. cbn. by rewrite !app_nil_r.
  - assert (exists o, build_call b (Heap s t) = Ok (o, Heap (s ++ omap builder_spatial [b]) (t ++ omap builder_temporal [b]))) as (o & E).
    { destruct b; eexists; cbn; rewrite ?app_nil_r; reflexivity. }
    destruct (IH (Heap (s ++ omap builder_spatial [b]) (t ++ omap builder_temporal [b]))) as (os & E2 & L).
    exists (o :: os). split; [|simpl; by rewrite L].
    simpl declare. unfold bind at 1. rewrite E. unfold bind. rewrite E2. unfold ret. cbn [h_spatial h_temporal].
    rewrite <- !app_assoc, <- !omap_app. done.
Qed.
Lemma program_spec {V} bs eqn : program (V := V) bs eqn = eval_equation eqn (declared bs).
Proof. unfold program, bind. destruct (declare_heap (V := V) bs (Heap [] [])) as (os & E & _). rewrite E. done. Qed.
