(** C98: the functions of dsl::imp and dsl::exp. *)
From Verif Require Import Base Dict Registry Par Exec Reduce ReduceProofs Value Kernel KernelProofs Ticket Mesh MeshSpec Coeff FV FVSpec FVProofs FVProps
  Sparsity SparsitySpec SparsityMain SparsityProps Assembly AssemblySpec AssemblyProofs AssemblyProps ExampleMesh Properties_Sparsity Properties_Assembly
  Dsl DslSpec DslHeapProofs DslProofs DslAssembly DslFresh Properties_Dsl Properties_ExactDsl FrontEnd Boundary TimeInt Properties_DslAssembly.

(** ** Specification *)

(** imp:: functions make implicit operators, exp:: functions explicit ones. *)
Definition promised_type (b : builder) : opType :=
  match b with
  | ImpDdt _ | ImpSource _ _ | ImpDiv _ _ | ImpLaplacian _ _ => Implicit
  | ExpDiv _ _ | ExpIntegrate _ | ExpSource _ _ | ExpLaplacian _ _ => Explicit
  end.

Section spec.
  Context {V : Type} `{ValueType V} `{ValueUnit V} `{ValueTag V}.
  (** What the operator made by the call stands for at cell [c], per unit volume
      for an explicit operator (evaluated with the fields of [cx], interpolating
      with [s]), integrated over the cell and at [x] for an implicit one. *)
  Definition promised_explicit (cx : ctx V) (s : interpScheme) (b : builder) (c : nat) : V :=
    let m := cx_mesh cx in
    match b with
    | ExpDiv flux phi => div_spec m s (cx_surf cx flux) (cx_weights cx) (cx_vol cx phi) coeff_default c
    | ExpIntegrate flux => surface_integral_spec m (cx_surfV cx flux) coeff_default c
    | ExpLaplacian _ phi => laplacian_spec m (cx_dc cx) (cx_vol cx phi) coeff_default c
    | _ => vzero
    end.
  Definition promised_implicit (cx : ctx V) (b : builder) (x : list V) (c : nat) : V :=
    let m := cx_mesh cx in
    match b with
    | ImpDiv flux phi =>
        cell_balance m (fun f => vscale (at0 (cx_surf cx flux) f)
          (implicit_face_value m (with_int (cx_vol cx phi) x) (cx_surf cx flux) f)) c
    | ImpLaplacian gamma phi =>
        cell_balance m (fun f => vscale (at0 (cx_surf cx gamma) f * at0 (magFaceAreas m) f)%Qc
          (implicit_normal_gradient m (with_int (cx_vol cx phi) x) (cx_dc cx) f)) c
    | _ => vzero
    end.
  (** The arguments of the call fit the mesh. *)
  Definition arguments_fit (cx : ctx V) (b : builder) : Prop :=
    let m := cx_mesh cx in
    match b with
    | ImpDiv flux phi | ExpDiv flux phi | ImpLaplacian flux phi | ExpLaplacian flux phi =>
        length (cx_surf cx flux) = nFaces m /\ field_ok m (cx_vol cx phi) /\ boundary_ok m (cx_vol cx phi)
    | ExpIntegrate flux => length (cx_surfV cx flux) = nFaces m
    | ImpSource coef phi | ExpSource coef phi => length (cx_coef cx coef) = nCells m /\ field_ok m (cx_vol cx phi)
    | ImpDdt phi => length (cx_old cx phi) = nCells m
    end.
  (** The interpolation the dictionary selects for the operator made by [b]. *)
  Definition selects (cx : ctx V) (d : dict) (b : builder) (s : interpScheme) : Prop :=
    match b with
    | ImpDiv flux phi | ExpDiv flux phi => exists x interp,
        (div_build (cx_surfName cx flux) (cx_volName cx phi) (IDict d)).1 = Ok (x, interp) /\
        s = if decide (interp = "upwind") then Upwind else Linear
    | _ => True
    end.
End spec.

Lemma spatial_explicit_source {V} `{ValueType V} `{ValueUnit V} `{ValueTag V} (cx : ctx V) co p t k source r :
  spatial_explicit cx (SpatialOp (SourceTerm co p) t k) source r <-> r = Ok source.
Proof. reflexivity. Qed.

(** * C98 *)

(** The call returns a new object and changes no other; the object has the type
    the name promises and the coefficient 1. *)
Theorem C98_new_operator : forall {V} (b : builder) (h : heap V), exists o h',
  build_call b h = Ok (o, h') /\ preserved h h' /\
  match o with
  | OpS p => h_spatial h !! p = None /\ (forall phi, b <> ImpDdt phi) /\
      exists x, h_spatial h' !! p = Some x /\ so_type x = promised_type b /\ forall n c, coeff_ok (so_coeff x) n /\ coeff_val (so_coeff x) c = 1%Qc
  | OpT p => h_temporal h !! p = None /\
      exists phi x, b = ImpDdt phi /\ h_temporal h' !! p = Some x /\ to_type x = promised_type b /\ to_phi x = phi /\
        forall n c, coeff_ok (to_coeff x) n /\ coeff_val (to_coeff x) c = 1%Qc
  end.
Proof.
  intros V b [hs ht].
  assert (Hnew : forall {A} (l : list A) x, (l ++ [x]) !! length l = Some x) by (intros; by apply list_lookup_middle).
  assert (Hnone : forall {A} (l : list A), l !! length l = None) by (intros; by apply lookup_ge_None_2).
  assert (Hold : forall {A} (l : list A) x p y, l !! p = Some y -> (l ++ [x]) !! p = Some y) by (intros; by apply lookup_app_l_Some).
  destruct b as [phi|c phi|f phi|g phi|f phi|f|c phi|g phi]; cbn; do 2 eexists; (split; [reflexivity|]);
    (split; [split; intros p o Hp; cbn in *; auto|]).
  - split; [apply Hnone|]. do 2 eexists. split; [reflexivity|]. split; [apply Hnew|]. split; [done|]. split; [done|]. intros; split; [done|]. vm_compute. by apply Qc_is_canon.
  - split; [apply Hnone|]. split; [done|]. eexists. split; [apply Hnew|]. split; [done|]. intros; split; [done|]. by apply Qc_is_canon.
  - split; [apply Hnone|]. split; [done|]. eexists. split; [apply Hnew|]. split; [done|]. intros; split; [done|]. by apply Qc_is_canon.
  - split; [apply Hnone|]. split; [done|]. eexists. split; [apply Hnew|]. split; [done|]. intros; split; [done|]. by apply Qc_is_canon.
  - split; [apply Hnone|]. split; [done|]. eexists. split; [apply Hnew|]. split; [done|]. intros; split; [done|]. by apply Qc_is_canon.
  - split; [apply Hnone|]. split; [done|]. eexists. split; [apply Hnew|]. split; [done|]. intros; split; [done|]. by apply Qc_is_canon.
  - split; [apply Hnone|]. split; [done|]. eexists. split; [apply Hnew|]. split; [done|]. intros; split; [done|]. by apply Qc_is_canon.
  - split; [apply Hnone|]. split; [done|]. eexists. split; [apply Hnew|]. split; [done|]. intros; split; [done|]. by apply Qc_is_canon.
Qed.

(** After build() with a dictionary that selects [s], the operator made by an
    exp:: function adds what it promises (the divergence for scalar fields:
    C80); exp::source adds nothing (C80); the explicit Laplacian ignores gamma (C78). *)
Theorem C98_explicit : forall {V} `{ValueLaws V} `{!ValueUnit V} `{!UnitLaws V} `{!ValueTag V} (cx : ctx V) d b s h p h' x x',
  cx_fits cx -> arguments_fit cx b -> selects cx d b s -> promised_type b = Explicit ->
  (forall flux phi, b = ExpDiv flux phi -> (vtag : vty) = VScalar) ->
  build_call b h = Ok (OpS p, h') -> h_spatial h' !! p = Some x -> op_build cx d x = Ok x' ->
  so_type x' = Explicit /\ adds (nCells (cx_mesh cx)) (spatial_explicit cx x') (promised_explicit cx s b).
Proof.
  intros V ? ? ? ? ? cx d b s h p h' x x' Hcx Ha Hsel Hb Hv Hc Hx Hbu.
  destruct h as [hs ht]. destruct b as [phi|c phi|f phi|g phi|f phi|f|c phi|g phi]; try discriminate; cbn in Hc; injection Hc as <- <-;
    cbn in Hx; rewrite list_lookup_middle in Hx by done; injection Hx as <-.
  - destruct Hsel as (y & interp & E & ->). unfold op_build in Hbu. cbn [so_kind so_type so_coeff] in Hbu. rewrite E in Hbu. injection Hbu as <-.
    split; [done|]. set (s := if decide _ then _ else _).
    pose proof (C39_explicit cx (DivOperator f phi (Some s)) Hcx) as HE.
    assert (Hkf : kind_fits cx (DivOperator f phi (Some s))) by (split; [done|exact Ha]).
    intros source Hs. specialize (HE Hkf (Hv f phi eq_refl) (coeff_scalar 1%Qc) ltac:(done) source Hs).
    erewrite map_ext; [exact HE|]. intros c. cbv beta. f_equal. change (coeff_val (coeff_scalar 1) c) with (1 * 1)%Qc.
    rewrite Qcmult_1_l, vscale_1. done.
  - injection Hbu as <-. split; [done|].
    intros source Hs. pose proof (C39_explicit cx (SurfaceIntegrate f) Hcx Ha I (coeff_scalar 1%Qc) ltac:(done) source Hs) as HE.
    erewrite map_ext; [exact HE|]. intros c. cbv beta. f_equal. change (coeff_val (coeff_scalar 1) c) with (1 * 1)%Qc.
    rewrite Qcmult_1_l, vscale_1. done.
  - injection Hbu as <-. split; [done|]. intros source Hs r. rewrite spatial_explicit_source.
    replace (map _ _) with source; [done|]. apply list_eq. intros i. unfold promised_explicit. rewrite <- Hs.
    change (source !! i = ((fun c0 => vadd (atV source c0) vzero) <$> seq 0 (length source)) !! i). rewrite list_lookup_fmap.
    destruct (decide (i < length source)) as [Hi|Hi].
    + rewrite lookup_seq_lt by done. simpl. rewrite (vadd_comm (atV source i)), vadd_0_l. by apply lookup_atV.
    + rewrite (proj2 (lookup_ge_None source i)) by lia. rewrite (proj2 (lookup_ge_None (seq 0 _) i)) by (rewrite seq_length; lia). done.
  - unfold op_build in Hbu. cbn [so_kind so_type so_coeff] in Hbu.
    destruct (laplacian_build _ _ _).1 eqn:E; try discriminate. injection Hbu as <-. split; [done|].
    assert (Hkf : kind_fits cx (LaplacianOperator g phi true)) by (split; [done|exact Ha]).
    intros source Hs. specialize (C39_explicit cx (LaplacianOperator g phi true) Hcx Hkf I (coeff_scalar 1%Qc) ltac:(done) source Hs) as HE.
    erewrite map_ext; [exact HE|]. intros c. cbv beta. f_equal. change (coeff_val (coeff_scalar 1) c) with (1 * 1)%Qc.
    rewrite Qcmult_1_l, vscale_1. done.
Qed.

(** The operator made by an imp:: function adds what it promises to A x - b;
    imp::source adds nothing (C80). *)
Theorem C98_implicit : forall {V} `{ValueLaws V} `{!ValueUnit V} `{!UnitLaws V} `{!ValueTag V} (cx : ctx V) d b s h p h' x x',
  cx_fits cx -> arguments_fit cx b -> selects cx d b s -> promised_type b = Implicit ->
  build_call b h = Ok (OpS p, h') -> h_spatial h' !! p = Some x -> op_build cx d x = Ok x' ->
  so_type x' = Implicit /\
  contributes (cx_mesh cx) (cx_pattern cx) (spatial_implicit cx (sp_rowPtrs (cx_pattern cx)) x') (promised_implicit cx b).
Proof.
  intros V ? ? ? ? ? cx d b s h p h' x x' Hcx Ha Hsel Hb Hc Hx Hbu.
  destruct h as [hs ht]. destruct b as [phi|c phi|f phi|g phi|f phi|f|c phi|g phi]; try discriminate; cbn in Hc; injection Hc as <- <-;
    cbn in Hx; rewrite list_lookup_middle in Hx by done; injection Hx as <-.
  - injection Hbu as <-. split; [done|]. intros values rhs Hs. exists values, rhs. split; [intros r; reflexivity|]. split; [done|].
    intros y c0 _. cbn [promised_implicit]. by rewrite (vadd_comm (residual _ _ _ _ _)), vadd_0_l.
  - destruct Hsel as (y & interp & E & ->). unfold op_build in Hbu. cbn [so_kind so_type so_coeff] in Hbu. rewrite E in Hbu. injection Hbu as <-.
    split; [done|]. set (s := if decide _ then _ else _).
    assert (Hkf : kind_fits cx (DivOperator f phi (Some s))) by (split; [done|exact Ha]).
    intros values rhs Hs.
    destruct (C39_implicit cx (DivOperator f phi (Some s)) Hcx Hkf I (coeff_scalar 1%Qc) ltac:(done) values rhs Hs) as (v' & r' & H1 & H2 & H3).
    exists v', r'. split; [done|]. split; [done|]. intros z c Hc. rewrite (H3 z c Hc). f_equal. change (coeff_val (coeff_scalar 1) c) with (1 * 1)%Qc.
    rewrite Qcmult_1_l, vscale_1. done.
  - unfold op_build in Hbu. cbn [so_kind so_type so_coeff] in Hbu.
    destruct (laplacian_build _ _ _).1 eqn:E; try discriminate. injection Hbu as <-. split; [done|].
    assert (Hkf : kind_fits cx (LaplacianOperator g phi true)) by (split; [done|exact Ha]).
    intros values rhs Hs.
    destruct (C39_implicit cx (LaplacianOperator g phi true) Hcx Hkf I (coeff_scalar 1%Qc) ltac:(done) values rhs Hs) as (v' & r' & H1 & H2 & H3).
    exists v', r'. split; [done|]. split; [done|]. intros z c Hc. rewrite (H3 z c Hc). f_equal. change (coeff_val (coeff_scalar 1) c) with (1 * 1)%Qc.
    rewrite Qcmult_1_l, vscale_1. done.
Qed.
Theorem C98_ddt : forall {V} `{ValueLaws V} `{!ValueUnit V} `{!UnitLaws V} `{!ValueTag V} (cx : ctx V) phi dt (h h' : heap V) p x,
  cx_fits cx -> length (cx_old cx phi) = nCells (cx_mesh cx) ->
  build_call (ImpDdt phi) h = Ok (OpT p, h') -> h_temporal h' !! p = Some x ->
  contributes (cx_mesh cx) (cx_pattern cx) (temporal_implicit cx (sp_rowPtrs (cx_pattern cx)) dt x)
    (fun y c => vscale (at0 (cellVolumes (cx_mesh cx)) c / dt)%Qc (vsub (atV y c) (atV (cx_old cx phi) c))).
Proof.
  intros V ? ? ? ? ? cx phi dt [hs ht] h' p x Hcx Ho Hc Hx. cbn in Hc; injection Hc as <- <-.
  cbn in Hx; rewrite list_lookup_middle in Hx by done; injection Hx as <-. intros values rhs Hs.
  destruct (C39_ddt_implicit cx dt phi Hcx Ho (coeff_scalar 1%Qc) ltac:(done) values rhs Hs) as (v' & r' & H1 & H2 & H3).
  exists v', r'. split; [done|]. split; [done|]. intros z c Hcc. rewrite (H3 z c Hcc). f_equal. change (coeff_val (coeff_scalar 1) c) with (1 * 1)%Qc.
  rewrite Qcmult_1_l, vscale_1. done.
Qed.

(** Solving an equation without operators ends the program (solver.hpp:48-51):
    no field is changed. *)
Theorem C98_empty_equation : forall dbg cx n bcs lin fvSchemes fvSolution h e t dt st r,
  ex_temporal e = [] -> ex_spatial e = [] ->
  dsl_solve dbg cx n bcs lin fvSchemes fvSolution h e t dt st r <-> r = Exit.
Proof. intros * Ht Hs. unfold dsl_solve. rewrite Ht, Hs. done. Qed.

(** The hypotheses of C98_explicit and C98_implicit are met on a mesh of three cells. *)
Definition schemes3 : dict :=
  [("divSchemes", ADict [("div(flux,phi)", ATokens [AString "Gauss"; AString "linear"] 0)])]%string.
Example C98_instance :
  cx_fits cx3 /\ arguments_fit cx3 (ExpDiv 0 0) /\ selects cx3 schemes3 (ExpDiv 0 0) Linear /\
  promised_explicit cx3 Linear (ExpDiv 0 0) 1 <> 0%Qc /\
  exists p h' x x', build_call (V := Qc) (ExpDiv 0 0) (Heap [] []) = Ok (OpS p, h') /\ h_spatial h' !! p = Some x /\ op_build cx3 schemes3 x = Ok x'.
Proof.
  split; [apply cx3_fits|]. split; [done|]. split.
  { do 2 eexists. split; [vm_compute; reflexivity|]. reflexivity. }
  split; [intros E; apply (f_equal this) in E; vm_compute in E; discriminate|].
  do 4 eexists. split; [reflexivity|]. split; [reflexivity|]. vm_compute. reflexivity.
Qed.
