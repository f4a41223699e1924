(** C39, C45, C46: operators in equations, expressions, assembly. *)
From Verif Require Import Base Dict Registry Par Exec Reduce ReduceProofs Value Kernel KernelProofs Ticket Mesh MeshSpec Coeff FV FVSpec FVProofs FVProps
  Sparsity SparsitySpec SparsityMain SparsityProps Assembly AssemblySpec AssemblyProofs AssemblyProps ExampleMesh Properties_Sparsity Properties_Assembly
  Dsl DslSpec DslHeapProofs DslProofs DslAssembly DslFresh.

(** * The library's operators *)
Section leaves.
  Context {V : Type} `{ValueType V} `{ValueUnit V} `{ValueTag V}.

  (** What an explicit operator of this kind means at cell c (coefficient 1). *)
  Definition explicit_kind (cx : ctx V) (k : spatialKind V) (c : nat) : V :=
    let m := cx_mesh cx in
    match k with
    | DivOperator flux phi (Some s) => div_spec m s (cx_surf cx flux) (cx_weights cx) (cx_vol cx phi) coeff_default c
    | LaplacianOperator gamma phi _ => laplacian_spec m (cx_dc cx) (cx_vol cx phi) coeff_default c
    | SurfaceIntegrate flux => surface_integral_spec m (cx_surfV cx flux) coeff_default c
    | SourceTerm coef phi => vscale (at0 (cx_coef cx coef) c) (atV (vf_int (cx_vol cx phi)) c)
    | _ => vzero
    end.
  (** What an implicit operator of this kind, applied to x, means at cell c
      (integrated over the cell). *)
  Definition implicit_kind (cx : ctx V) (k : spatialKind V) (x : list V) (c : nat) : V :=
    let m := cx_mesh cx in
    match k with
    | DivOperator flux phi _ =>
        cell_balance m (fun f => vscale (at0 (cx_surf cx flux) f)
          (implicit_face_value m (with_int (cx_vol cx phi) x) (cx_surf cx flux) f)) c
    | LaplacianOperator gamma phi _ =>
        cell_balance m (fun f => vscale (at0 (cx_surf cx gamma) f * at0 (magFaceAreas m) f)%Qc
          (implicit_normal_gradient m (with_int (cx_vol cx phi) x) (cx_dc cx) f)) c
    | SourceTerm coef phi => vscale (at0 (cx_coef cx coef) c * at0 (cellVolumes m) c)%Qc (atV x c)
    | _ => vzero
    end.
  Definition implicit_ddt (cx : ctx V) (dt : Qc) (phi : nat) (x : list V) (c : nat) : V :=
    vscale (at0 (cellVolumes (cx_mesh cx)) c / dt)%Qc (vsub (atV x c) (atV (cx_old cx phi) c)).

  (** Mesh, geometry and pattern of the context fit together. *)
  Definition cx_fits (cx : ctx V) : Prop :=
    let m := cx_mesh cx in
    valid_topology m /\ pattern_rows m (cx_pattern cx) /\ pattern_located m (cx_pattern cx) /\
    length (cx_weights cx) = nFaces m /\ length (cx_dc cx) = nFaces m /\ length (magFaceAreas m) = nFaces m /\
    no_boundary_race (cx_exec cx) m.
  (** The operator is built (where it needs to be) and its fields fit the mesh. *)
  Definition kind_fits (cx : ctx V) (k : spatialKind V) : Prop :=
    let m := cx_mesh cx in
    match k with
    | DivOperator flux phi s => s <> None /\ length (cx_surf cx flux) = nFaces m /\
        field_ok m (cx_vol cx phi) /\ boundary_ok m (cx_vol cx phi)
    | LaplacianOperator gamma phi b => b = true /\ length (cx_surf cx gamma) = nFaces m /\
        field_ok m (cx_vol cx phi) /\ boundary_ok m (cx_vol cx phi)
    | SurfaceIntegrate flux => length (cx_surfV cx flux) = nFaces m
    | SourceTerm coef phi => length (cx_coef cx coef) = nCells m /\ field_ok m (cx_vol cx phi)
    | UserOperator _ => True
    end.
  (** The class of the operator has an explicitOperation (implicitOperation) for
      fields (systems) of the operator's value type. *)
  Definition provides_explicit (k : spatialKind V) : Prop :=
    match k with UserOperator u => cl_explicit (u_class u) = Some vtag | _ => True end.
  Definition provides_implicit (k : spatialKind V) : Prop :=
    match k with UserOperator u => cl_implicit (u_class u) = Some vtag | SurfaceIntegrate _ => False | _ => True end.
End leaves.

Lemma per_volume_scale {V} `{ValueLaws V} m co c (y : V) :
  per_volume m co c y = vscale (coeff_val co c) (per_volume m coeff_default c y).
Proof. unfold per_volume. rewrite <- vscale_mul. f_equal. unfold coeff_default, coeff_val, Qcdiv. simpl. ring. Qed.
Lemma surely_junk {A} (n : nat) (P : list A -> Prop) (op : list A -> outcome (list A) -> Prop) (x0 : A) a :
  (forall junk, length junk = n -> surely (op junk) a) ->
  surely (fun r => exists junk, length junk = n /\ op junk r) a.
Proof.
  intros Hj r. split.
  - intros (junk & Hl & Hr). by apply (Hj junk Hl).
  - intros ->. exists (replicate n x0). split; [apply replicate_length|]. apply Hj; [apply replicate_length|done].
Qed.

(** * C39 *)
(** Explicit evaluation through an expression reaches the operator: each of the
    library's operators with a FieldValueType matching its explicitOperation adds
    its coefficient times its meaning. *)
Theorem C39_explicit : forall {V} `{ValueLaws V} `{!ValueUnit V} `{!UnitLaws V} `{!ValueTag V} (cx : ctx V) k,
  cx_fits cx -> kind_fits cx k ->
  match k with
  | DivOperator _ _ _ => (vtag : vty) = VScalar
  | LaplacianOperator _ _ _ | SurfaceIntegrate _ => True
  | SourceTerm _ _ | UserOperator _ => False
  end ->
  explicit_meaning cx k (explicit_kind cx k).
Proof.
  intros V ? ? ? ? ? cx k (Hm & Hp & Hpl & Hw & Hdc & Hmag & Hrace) Hk Hv co Hco source Hs.
  unfold spatial_explicit, concrete_explicit. cbn [so_kind so_coeff].
  destruct k as [flux phi s|gamma phi b|flux|coef phi|u]; simpl in Hk; try contradiction.
  - destruct Hk as (Hs' & Hfl & Hf & Hb). destruct s as [s|]; [|done].
    assert (HasExplicitOperator (class_of (DivOperator (V := V) flux phi (Some s))) = true) as ->.
    { unfold HasExplicitOperator, member_fits. simpl. rewrite Hv. done. }
    apply (surely_junk (nFaces (cx_mesh cx)) (fun _ => True) _ vzero). intros junk Hj. apply surely_lift.
    rewrite (map_ext _ (fun c => vadd (atV source c) (div_spec (cx_mesh cx) s (cx_surf cx flux) (cx_weights cx) (cx_vol cx phi) co c))).
    + by apply div_add_spec.
    + intros c. f_equal. unfold explicit_kind, div_spec. symmetry. apply per_volume_scale.
  - destruct Hk as (-> & Hfl & Hf & Hb).
    assert (HasExplicitOperator (class_of (LaplacianOperator (V := V) gamma phi true)) = true) as ->.
    { unfold HasExplicitOperator, member_fits. simpl. apply bool_decide_eq_true. done. }
    apply (surely_junk (nFaces (cx_mesh cx)) (fun _ => True) _ vzero). intros junk Hj. apply surely_lift.
    rewrite (map_ext _ (fun c => vadd (atV source c) (laplacian_spec (cx_mesh cx) (cx_dc cx) (cx_vol cx phi) co c))).
    + by apply laplacian_add_spec.
    + intros c. f_equal. unfold explicit_kind, laplacian_spec. symmetry. apply per_volume_scale.
  - assert (HasExplicitOperator (class_of (SurfaceIntegrate (V := V) flux)) = true) as ->.
    { unfold HasExplicitOperator, member_fits. simpl. apply bool_decide_eq_true. done. }
    apply surely_lift.
    rewrite (map_ext _ (fun c => vadd (atV source c) (surface_integral_spec (cx_mesh cx) (cx_surfV cx flux) co c))).
    + by apply si_add_spec.
    + intros c. f_equal. unfold explicit_kind, surface_integral_spec. symmetry. apply per_volume_scale.
Qed.
Print Assumptions C39_explicit.

Theorem C39_implicit : forall {V} `{ValueLaws V} `{!ValueUnit V} `{!UnitLaws V} `{!ValueTag V} (cx : ctx V) k,
  cx_fits cx -> kind_fits cx k ->
  match k with DivOperator _ _ _ | LaplacianOperator _ _ _ => True | _ => False end ->
  implicit_meaning cx k (implicit_kind cx k).
Proof.
  intros V ? ? ? ? ? cx k (Hm & Hp & Hpl & Hw & Hdc & Hmag & Hrace) Hk Hv co Hco values rhs Hs.
  unfold spatial_implicit, concrete_implicit. cbn [so_kind so_coeff].
  destruct k as [flux phi s|gamma phi b|flux|coef phi|u]; simpl in Hk; try contradiction.
  - destruct Hk as (Hs' & Hfl & Hf & Hb). destruct s as [s|]; [|done].
    assert (HasImplicitOperator (class_of (DivOperator (V := V) flux phi (Some s))) = true) as ->.
    { unfold HasImplicitOperator, member_fits. simpl. apply bool_decide_eq_true. done. }
    destruct (C34_residual (cx_mesh cx) (cx_pattern cx) Hm Hp Hpl (cx_exec cx) (cx_surf cx flux) (cx_vol cx phi) co values rhs Hrace Hfl Hb Hco Hs)
      as (v' & r' & H1 & H2 & H3).
    exists v', r'. split; [by apply surely_lift|]. split; [done|]. exact H3.
  - destruct Hk as (-> & Hfl & Hf & Hb).
    assert (HasImplicitOperator (class_of (LaplacianOperator (V := V) gamma phi true)) = true) as ->.
    { unfold HasImplicitOperator, member_fits. simpl. apply bool_decide_eq_true. done. }
    destruct (C36_residual (cx_mesh cx) (cx_pattern cx) Hm Hp Hpl (cx_exec cx) (cx_dc cx) (cx_surf cx gamma) (cx_vol cx phi) co values rhs Hrace Hdc Hfl Hmag Hb Hco Hs)
      as (v' & r' & H1 & H2 & H3).
    exists v', r'. split; [by apply surely_lift|]. split; [done|]. exact H3.
Qed.
Print Assumptions C39_implicit.

(** An operator whose scheme was never read (build() not called) is not skipped:
    an expression that contains one never evaluates to a result, and where the
    operators before it do give one, evaluating ends the program.  The implicit
    form, for a Div or Laplacian of any value type; the explicit form, for the
    value types the operator class takes. *)
Definition unbuilt {V} `{ValueType V} (o : spatialOp V) : Prop :=
  match so_kind o with DivOperator _ _ None | LaplacianOperator _ _ false => True | _ => False end.

Lemma rseq_assoc_dsl {A B C} (p : outcome A -> Prop) (k : A -> outcome B -> Prop) (k' : B -> outcome C -> Prop) r :
  rseq (rseq p k) k' r <-> rseq p (fun a => rseq (k a) k') r.
Proof.
  unfold rseq. split.
  - intros [(b & [(a & Ha & Hk)|[(x & _ & [=])|[[_ [=]]|[_ [=]]]]] & Hr)|[(x & [(a & Ha & Hk)|[(y & Hy & [= <-])|[[_ [=]]|[_ [=]]]]] & ->)|[[[(a & Ha & Hk)|[(y & Hy & [=])|[[Ha _]|[_ [=]]]]] ->]|[[(a & Ha & Hk)|[(y & Hy & [=])|[[_ [=]]|[Ha _]]]] ->]]]].
    + left. exists a. split; [done|]. left. eauto.
    + left. exists a. split; [done|]. right; left. eauto.
    + right; left. eauto.
    + left. exists a. split; [done|]. right; right; left. done.
    + right; right; left. done.
    + left. exists a. split; [done|]. right; right; right. done.
    + right; right; right. done.
  - intros [(a & Ha & [(b & Hb & Hr)|[(x & Hx & ->)|[[Hk ->]|[Hk ->]]]])|[(x & Hx & ->)|[[Hk ->]|[Hk ->]]]].
    + left. exists b. split; [left; eauto|done].
    + right; left. exists x. split; [left; eauto|done].
    + right; right; left. split; [left; eauto|done].
    + right; right; right. split; [left; eauto|done].
    + right; left. exists x. split; [right; left; eauto|done].
    + right; right; left. split; [right; right; left; done|done].
    + right; right; right. split; [right; right; right; done|done].
Qed.
Lemma rseq_exit {A B} (p : outcome A -> Prop) (k : A -> outcome B -> Prop) r :
  (forall y, p y <-> y = Exit) -> rseq p k r <-> r = Exit.
Proof.
  intros Hp. unfold rseq. split.
  - intros [(a & Ha & _)|[(x & Ha & _)|[[_ ->]|[Ha _]]]]; try done; by apply Hp in Ha.
  - intros ->. right; right; left. split; [by apply Hp|done].
Qed.
Lemma rseq_after {A B} (p : outcome A -> Prop) (k : A -> outcome B -> Prop) s r :
  surely p s -> rseq p k r <-> k s r.
Proof.
  intros Hp. unfold rseq. split.
  - intros [(a & Ha & Hk)|[(x & Ha & _)|[[Ha _]|[Ha _]]]]; apply Hp in Ha; try discriminate. by injection Ha as ->.
  - intros Hk. left. exists s. split; [by apply Hp|done].
Qed.
Lemma run_explicit_app {V} `{ValueType V} `{!ValueUnit V} `{!ValueTag V} (cx : ctx V) h pre l : forall source r,
  run_explicit cx h (pre ++ l) source r <-> rseq (run_explicit cx h pre source) (fun s => run_explicit cx h l s) r.
Proof.
  induction pre as [|q pre IH]; intros source r.
  - cbn [app run_explicit]. symmetry. by apply (rseq_after (fun r : outcome (list V) => r = Ok source)).
  - cbn [app run_explicit]. destruct (h_spatial h !! q) as [o|].
    + destruct (decide (so_type o = Explicit)); [|apply IH].
      rewrite rseq_assoc_dsl. unfold rseq at 1 3. by setoid_rewrite IH.
    + split; [intros ->; right; right; right; done|].
      intros [(a & [=] & _)|[(x & [=] & _)|[[[=] _]|[_ ->]]]]. done.
Qed.
Lemma run_implicit_app {V} `{ValueType V} `{!ValueUnit V} `{!ValueTag V} (cx : ctx V) h rowOffs pre l : forall ls r,
  run_implicit cx h rowOffs (pre ++ l) ls r <->
  rseq (run_implicit cx h rowOffs pre ls) (fun s => run_implicit cx h rowOffs l s) r.
Proof.
  induction pre as [|q pre IH]; intros ls r.
  - cbn [app run_implicit]. symmetry. by apply (rseq_after (fun r : outcome (list (list V)) => r = Ok ls)).
  - cbn [app run_implicit]. destruct (h_spatial h !! q) as [o|].
    + destruct (decide (so_type o = Implicit)); [|apply IH].
      rewrite rseq_assoc_dsl. unfold rseq at 1 3. by setoid_rewrite IH.
    + split; [intros ->; right; right; right; done|].
      intros [(a & [=] & _)|[(x & [=] & _)|[[[=] _]|[_ ->]]]]. done.
Qed.

Theorem C39_unbuilt_explicit : forall {V} `{ValueType V} `{!ValueUnit V} `{!ValueTag V} (cx : ctx V) h ts pre p post o,
  (vtag : vty) = VScalar -> h_spatial h !! p = Some o -> unbuilt o -> so_type o = Explicit ->
  forall source,
  (forall s, ~ explicitOperation cx h (Expression ts (pre ++ p :: post)) source (Ok s)) /\
  forall s, surely (explicitOperation cx h (Expression ts pre) source) s ->
    forall r, explicitOperation cx h (Expression ts (pre ++ p :: post)) source r <-> r = Exit.
Proof.
  intros V ? ? ? cx h ts pre p post o Hv Ho Hu Ht source.
  assert (Hx : forall source r, run_explicit cx h (p :: post) source r <-> r = Exit).
  { intros source' r. cbn [run_explicit]. rewrite Ho. rewrite decide_True by done. apply rseq_exit. intros y.
    unfold spatial_explicit, concrete_explicit, unbuilt in *. destruct o as [k ty co]. cbn [so_kind] in *.
    destruct k as [flux phi [s|]|gamma phi []|flux|coef phi|u]; try done.
    - assert (HasExplicitOperator (class_of (DivOperator (V := V) flux phi None)) = true) as ->; [|done].
      unfold HasExplicitOperator, member_fits. simpl. apply bool_decide_eq_true. done.
    - assert (HasExplicitOperator (class_of (LaplacianOperator (V := V) gamma phi false)) = true) as ->; [|done].
      unfold HasExplicitOperator, member_fits. simpl. by apply bool_decide_eq_true. }
  unfold explicitOperation. cbn [ex_spatial]. split.
  - intros s Hs. apply run_explicit_app in Hs as [(a & _ & Hs)|[(x & _ & [=])|[[_ [=]]|[_ [=]]]]]. by apply Hx in Hs.
  - intros s Hs r. rewrite run_explicit_app. rewrite (rseq_after _ _ _ _ Hs). apply Hx.
Qed.
Print Assumptions C39_unbuilt_explicit.

Theorem C39_unbuilt_implicit : forall {V} `{ValueType V} `{!ValueUnit V} `{!ValueTag V} (cx : ctx V) h rowOffs ts pre p post o,
  h_spatial h !! p = Some o -> unbuilt o -> so_type o = Implicit ->
  forall ls,
  (forall s, ~ implicitOperation cx h rowOffs (Expression ts (pre ++ p :: post)) ls (Ok s)) /\
  forall s, surely (implicitOperation cx h rowOffs (Expression ts pre) ls) s ->
    forall r, implicitOperation cx h rowOffs (Expression ts (pre ++ p :: post)) ls r <-> r = Exit.
Proof.
  intros V ? ? ? cx h rowOffs ts pre p post o Ho Hu Ht ls.
  assert (Hx : forall ls r, run_implicit cx h rowOffs (p :: post) ls r <-> r = Exit).
  { intros ls' r. cbn [run_implicit]. rewrite Ho. rewrite decide_True by done. apply rseq_exit. intros y.
    unfold spatial_implicit, concrete_implicit, unbuilt in *. destruct o as [k ty co]. cbn [so_kind] in *.
    destruct k as [flux phi [s|]|gamma phi []|flux|coef phi|u]; try done.
    - assert (HasImplicitOperator (class_of (DivOperator (V := V) flux phi None)) = true) as ->; [|done].
      unfold HasImplicitOperator, member_fits. simpl. by apply bool_decide_eq_true.
    - assert (HasImplicitOperator (class_of (LaplacianOperator (V := V) gamma phi false)) = true) as ->; [|done].
      unfold HasImplicitOperator, member_fits. simpl. by apply bool_decide_eq_true. }
  unfold implicitOperation. cbn [ex_spatial]. split.
  - intros s Hs. apply run_implicit_app in Hs as [(a & _ & Hs)|[(x & _ & [=])|[[_ [=]]|[_ [=]]]]]. by apply Hx in Hs.
  - intros s Hs r. rewrite run_implicit_app. rewrite (rseq_after _ _ _ _ Hs). apply Hx.
Qed.
Print Assumptions C39_unbuilt_implicit.

Theorem C39_ddt_implicit : forall {V} `{ValueLaws V} `{!ValueUnit V} `{!UnitLaws V} `{!ValueTag V} (cx : ctx V) dt phi,
  cx_fits cx -> length (cx_old cx phi) = nCells (cx_mesh cx) ->
  implicit_meaning_T cx dt phi (implicit_ddt cx dt phi).
Proof.
  intros V ? ? ? ? ? cx dt phi (Hm & Hp & Hpl & Hw & Hdc & Hmag & Hrace) Ho co Hco values rhs Hs.
  unfold temporal_implicit. cbn [to_coeff to_phi].
  assert (HasImplicitOperator (ddt_class (V := V)) = true) as ->.
  { unfold HasImplicitOperator, member_fits. simpl. apply bool_decide_eq_true. done. }
  destruct (C38_ddt_implicit (cx_mesh cx) (cx_pattern cx) Hm Hp Hpl (cx_exec cx) co dt (cx_old cx phi) values rhs Hco Ho Hs)
    as (v' & r' & H1 & H2 & H3 & _).
  exists v', r'. split; [by apply surely_lift|]. split; [done|]. intros x c Hc.
  destruct (H3 c Hc) as (_ & _ & ->). f_equal. unfold implicit_ddt. rewrite <- vscale_mul. f_equal. unfold Qcdiv. ring.
Qed.
Print Assumptions C39_ddt_implicit.

(** User-defined operators: the wrapper calls the operator iff its class declares
    a FieldValueType that fits, and otherwise leaves the argument as it is. *)
Theorem C39_user_operators : forall {V} `{ValueLaws V} `{!ValueUnit V} `{!ValueTag V} (cx : ctx V) u t co source r,
  (cl_fieldValueType (u_class u) = Some vtag -> cl_explicit (u_class u) = Some vtag ->
   spatial_explicit cx (SpatialOp (UserOperator u) t co) source r <-> u_explicit u cx co source r) /\
  (cl_fieldValueType (u_class u) = None ->
   spatial_explicit cx (SpatialOp (UserOperator u) t co) source r <-> r = Ok source).
Proof.
  intros V ? ? ? ? cx u t co source r. unfold spatial_explicit, HasExplicitOperator, member_fits. simpl. split.
  - intros -> ->. rewrite bool_decide_true by done. done.
  - intros ->. done.
Qed.
Print Assumptions C39_user_operators.

(** Two of the library's operators do not act. *)
Section silent.
  (** A context on a single cell of volume 1. *)
  Definition cx1 (V : Type) `{ValueType V} (phi : volField V) : ctx V :=
    Ctx SerialExecutor cell1 [1; 1]%Qc [1; 1]%Qc pat1 (fun _ => [1; 1]%Qc) (fun _ => [vzero; vzero]) (fun _ => phi) (fun _ => [1%Qc])
      (fun _ => [vzero]) (fun _ => "flux"%string) (fun _ => "phi"%string).
  Lemma cx1_fits (V : Type) `{ValueType V} phi : cx_fits (cx1 V phi).
  Proof.
    destruct pat1_ok as [Hp Hpl]. split; [apply cell1_topology|]. split; [done|]. split; [done|].
    split; [done|]. split; [done|]. split; [done|]. by left.
  Qed.
End silent.

(** SourceTerm declares no FieldValueType (sourceTerm.hpp:18-42): in an equation
    it contributes nothing, explicitly or implicitly. *)
Theorem C80_source_term_explicit_refuted : ~ forall (cx : ctx Qc) k,
  cx_fits cx -> kind_fits cx k -> provides_explicit k -> (forall u, k <> UserOperator u) ->
  explicit_meaning cx k (explicit_kind cx k).
Proof.
  intros HH.
  set (phi := VolField [1%Qc] [0; 0]%Qc [0; 0]%Qc [1; 1]%Qc [0; 0]%Qc).
  specialize (HH (cx1 Qc phi) (SourceTerm 0 0) (cx1_fits _ _)).
  assert (Hx : explicit_meaning (cx1 Qc phi) (SourceTerm 0 0) (explicit_kind (cx1 Qc phi) (SourceTerm 0 0))).
  { apply HH; [done|done|discriminate]. }
  specialize (Hx coeff_default I [0%Qc] eq_refl (Ok [0%Qc])).
  destruct Hx as [Hx _]. specialize (Hx eq_refl).
  apply (f_equal (fun r => match r with Ok [x] => this x | _ => 0%Q end)) in Hx. vm_compute in Hx. discriminate.
Qed.
Print Assumptions C80_source_term_explicit_refuted.

Theorem C80_source_term_implicit_refuted : ~ forall (cx : ctx Qc) k,
  cx_fits cx -> kind_fits cx k -> provides_implicit k -> (forall u, k <> UserOperator u) ->
  implicit_meaning cx k (implicit_kind cx k).
Proof.
  intros HH.
  set (phi := VolField [1%Qc] [0; 0]%Qc [0; 0]%Qc [1; 1]%Qc [0; 0]%Qc).
  specialize (HH (cx1 Qc phi) (SourceTerm 0 0) (cx1_fits _ _)).
  assert (Hx : implicit_meaning (cx1 Qc phi) (SourceTerm 0 0) (implicit_kind (cx1 Qc phi) (SourceTerm 0 0))).
  { apply HH; [done|done|discriminate]. }
  destruct (Hx coeff_default I [0%Qc] [0%Qc]) as (v & r & H1 & _ & H3); [done|].
  specialize (H1 (Ok [[0%Qc]; [0%Qc]])). destruct H1 as [H1 _]. specialize (H1 eq_refl). injection H1 as <- <-.
  specialize (H3 [1%Qc] 0 ltac:(simpl; lia)). apply (f_equal this) in H3. vm_compute in H3. discriminate.
Qed.
Print Assumptions C80_source_term_implicit_refuted.

(** The divergence of a vector field, placed explicitly, contributes nothing:
    DivOperator<Vector>::explicitOperation takes a Field<scalar>
    (divOperator.hpp:129). *)
Theorem C80_vector_divergence_refuted : ~ forall (cx : ctx vec) k,
  cx_fits cx -> kind_fits cx k -> match k with DivOperator _ _ _ => True | _ => False end ->
  explicit_meaning cx k (explicit_kind cx k).
Proof.
  intros HH.
  set (phi := VolField [vec_one] [vec_one; vec_one] [vec_one; vec_one] [1; 1]%Qc [vzero; vzero]).
  specialize (HH (cx1 vec phi) (DivOperator 0 0 (Some Upwind)) (cx1_fits _ _)).
  assert (Hx : explicit_meaning (cx1 vec phi) (DivOperator 0 0 (Some Upwind)) (explicit_kind (cx1 vec phi) (DivOperator 0 0 (Some Upwind)))).
  { apply HH; [done|done]. }
  specialize (Hx coeff_default I [vzero] eq_refl (Ok [vzero])).
  destruct Hx as [Hx _]. specialize (Hx eq_refl).
  apply (f_equal (fun r => match r with Ok [x] => this (vx x) | _ => 0%Q end)) in Hx. vm_compute in Hx. discriminate.
Qed.
Print Assumptions C80_vector_divergence_refuted.

(** * C45 *)
(** The explicit operators of the built expression add the value of the equation's
    text, in which each implicit operator counts zero; nothing that existed
    before is modified. *)
Theorem C45_explicit : forall {V} `{ValueLaws V} `{!ValueUnit V} `{!UnitLaws V} `{!ValueTag V} (cx : ctx V) h eqn GE,
  equation_wf h (nCells (cx_mesh cx)) eqn -> single_fields h eqn -> explicit_leaves cx h GE eqn ->
  exists e h', eval_equation eqn h = Ok (e, h') /\ preserved h h' /\
    adds (nCells (cx_mesh cx)) (explicitOperation cx h' e)
      (fun c => equation_value (object_value h (fun k => GE k c) (fun _ => vzero) c) (fun _ => vzero) c eqn).
Proof.
  intros V ? ? ? ? ? cx h eqn GE Hwf Hsf HGE.
  destruct (built cx h eqn Hwf Hsf) as (e & h1 & E & Hp & B & _). exists e, h1. eauto.
Qed.
Print Assumptions C45_explicit.

(** The same for the implicit operators, spatial and temporal, and the residual of
    the system. *)
Theorem C45_implicit : forall {V} `{ValueLaws V} `{!ValueUnit V} `{!UnitLaws V} `{!ValueTag V} (cx : ctx V) h eqn GI dt GT,
  equation_wf h (nCells (cx_mesh cx)) eqn -> single_fields h eqn ->
  implicit_leaves cx h GI eqn -> implicit_leaves_T cx dt h GT eqn ->
  exists e h', eval_equation eqn h = Ok (e, h') /\ preserved h h' /\
    contributes (cx_mesh cx) (cx_pattern cx) (implicitOperation cx h' (sp_rowPtrs (cx_pattern cx)) e)
      (fun x c => equation_value (object_value h (fun _ => vzero) (fun k => GI k x c) c) (fun _ => vzero) c eqn) /\
    contributes (cx_mesh cx) (cx_pattern cx) (implicitOperation_dt cx h' (sp_rowPtrs (cx_pattern cx)) e dt)
      (fun x c => equation_value (fun _ => vzero) (object_value_T h (fun _ => vzero) (fun phi => GT phi x c) c) c eqn).
Proof.
  intros V ? ? ? ? ? cx h eqn GI dt GT Hwf Hsf HGI HGT.
  destruct (built cx h eqn Hwf Hsf) as (e & h1 & E & Hp & _ & B2 & B3 & _). exists e, h1. split; [done|]. split; [done|]. split; [by apply B2|by apply B3].
Qed.
Print Assumptions C45_implicit.

(** A term with two field factors is not supported: the program stops with an
    error; every other equation can be built. *)
Theorem C45_field_products : forall {V} `{ValueLaws V} `{!ValueUnit V} `{!UnitLaws V} `{!ValueTag V} (h : heap V) n eqn,
  equation_wf h n eqn ->
  (eval_equation eqn h = Exit <-> ~ single_fields h eqn) /\
  ((exists e h', eval_equation eqn h = Ok (e, h')) <-> single_fields h eqn).
Proof.
  intros V ? ? ? ? ? h n eqn Hwf.
  destruct (eval_equation_spec n h eqn h (ext_refl h) Hwf) as [[Hs (e & h' & E & _)]|[Hs E]]; rewrite E.
  - split; split; [discriminate|done|done|]. intros _. by exists e, h'.
  - split; split; [done|done|intros (e & h' & E'); discriminate|done].
Qed.
Print Assumptions C45_field_products.

(** The operators of an expression built by any of the +, -, * overloads are
    objects of their own, so changing a source operator afterwards cannot change
    the expression. *)
Theorem C45_independent : forall {V} `{ValueType V} `{!ValueUnit V} `{!ValueTag V} (h h' : heap V) eqn e,
  eval_equation eqn h = Ok (e, h') -> (forall x, eqn <> EVar x) ->
  (forall q, q ∈ ex_spatial e -> length (h_spatial h) <= q) /\
  (forall q, q ∈ ex_temporal e -> length (h_temporal h) <= q).
Proof.
  intros V ? ? ? h h' eqn e E Hn.
  destruct (eval_equation_own h eqn h (bigger_refl h) e h' E) as [_ Ho]. destruct eqn; try exact Ho. by destruct (Hn e0).
Qed.
Print Assumptions C45_independent.

(** The order of the operators does not matter. *)
Theorem C45_order : forall {V} `{ValueLaws V} `{!ValueUnit V} `{!UnitLaws V} `{!ValueTag V} (cx : ctx V) h e1 e2 GE,
  ex_spatial e1 ≡ₚ ex_spatial e2 ->
  (forall q, q ∈ ex_spatial e1 -> exists o, h_spatial h !! q = Some o /\ coeff_ok (so_coeff o) (nCells (cx_mesh cx)) /\
     (so_type o = Explicit -> explicit_meaning cx (so_kind o) (GE (so_kind o)))) ->
  forall source r, length source = nCells (cx_mesh cx) ->
  explicitOperation cx h e1 source r <-> explicitOperation cx h e2 source r.
Proof.
  intros V ? ? ? ? ? cx h e1 e2 GE HP Hall source r Hs.
  assert (Hos : forall l, (forall q, q ∈ l -> q ∈ ex_spatial e1) -> exists os, Forall2 (isS h) l os /\
    os = map (fun q => default (SpatialOp (SurfaceIntegrate 0) Explicit coeff_default) (h_spatial h !! q)) l).
  { induction l as [|q l IH]; intros Hl; [exists []; split; [constructor|done]|].
    destruct IH as (os & HF & ->); [intros q' Hq'; apply Hl; by right|].
    destruct (Hall q) as (o & Eo & _); [apply Hl; by left|].
    exists (o :: map (fun q => default (SpatialOp (SurfaceIntegrate 0) Explicit coeff_default) (h_spatial h !! q)) l).
    split; [by constructor|]. simpl. by rewrite Eo. }
  assert (Ha : forall l, (forall q, q ∈ l -> q ∈ ex_spatial e1) ->
    adds (nCells (cx_mesh cx)) (run_explicit cx h l) (fun c => vsum (map (fun q =>
      valueS c (fun k t => match t with Explicit => GE k c | Implicit => vzero end)
        (default (SpatialOp (SurfaceIntegrate 0) Explicit coeff_default) (h_spatial h !! q))) l))).
  { intros l Hl. destruct (Hos l Hl) as (os & HF & Eos).
    eapply adds_ext; [by intros| |apply (run_explicit_adds cx h GE l os HF)].
    - intros c Hc. rewrite Eos, map_map. done.
    - intros o Ho Et. assert (exists q, q ∈ l /\ h_spatial h !! q = Some o) as (q & Hq & Eq).
      { clear -HF Ho. induction HF as [|q o' l os Hq HF IH]; [inversion Ho|].
        apply elem_of_cons in Ho as [->|Ho]; [exists q; split; [by left|done]|].
        destruct (IH Ho) as (q' & ? & ?). exists q'. split; [by right|done]. }
      destruct (Hall q (Hl q Hq)) as (o' & Eo & Hco & Hm). rewrite Eo in Eq. injection Eq as ->. auto. }
  pose proof (Ha (ex_spatial e1) ltac:(done) source Hs) as H1.
  pose proof (Ha (ex_spatial e2) ltac:(intros q Hq; by rewrite HP) source Hs) as H2.
  unfold explicitOperation. rewrite (H1 r), (H2 r).
  assert (forall c, vsum (map (fun q => valueS c (fun k t => match t with Explicit => GE k c | Implicit => vzero end)
        (default (SpatialOp (SurfaceIntegrate 0) Explicit coeff_default) (h_spatial h !! q))) (ex_spatial e1)) =
     vsum (map (fun q => valueS c (fun k t => match t with Explicit => GE k c | Implicit => vzero end)
        (default (SpatialOp (SurfaceIntegrate 0) Explicit coeff_default) (h_spatial h !! q))) (ex_spatial e2))) as Heq.
  { intros c. apply vsum_perm. by apply Permutation_map. }
  rewrite (map_ext _ (fun c => vadd (atV source c) (vsum (map (fun q => valueS c (fun k t => match t with Explicit => GE k c | Implicit => vzero end)
        (default (SpatialOp (SurfaceIntegrate 0) Explicit coeff_default) (h_spatial h !! q))) (ex_spatial e2))))); [done|].
  intros c. by rewrite Heq.
Qed.
Print Assumptions C45_order.

(** An explicit time derivative is not scaled by its coefficient. *)
Theorem C83_ddt_coefficient_refuted : ~ forall (cx : ctx Qc) h (k dt : Qc) q o e h',
  cx_fits cx -> h_temporal h !! q = Some o -> to_type o = Explicit ->
  length (vf_int (cx_vol cx (to_phi o))) = nCells (cx_mesh cx) -> length (cx_old cx (to_phi o)) = nCells (cx_mesh cx) ->
  eval_equation (EScale k (EVar (Expression [q] []))) h = Ok (e, h') ->
  forall source r r', length source = nCells (cx_mesh cx) ->
  explicitOperation_dt cx h (Expression [q] []) dt source (Ok r) ->
  explicitOperation_dt cx h' e dt source (Ok r') ->
  forall c, c < nCells (cx_mesh cx) -> (at0 r' c - at0 source c)%Qc = (k * (at0 r c - at0 source c))%Qc.
Proof.
  intros HH.
  set (phi := VolField [1%Qc] [0; 0]%Qc [0; 0]%Qc [1; 1]%Qc [0; 0]%Qc).
  set (h := Heap (V := Qc) [] [TemporalOp 0 Explicit coeff_default]).
  assert (Ev : exists e h', eval_equation (EScale (Q2Qc 2) (EVar (Expression [0] []))) h = Ok (e, h') /\
     exists t k, ex_temporal e = [t] /\ h_temporal h' !! t = Some (TemporalOp 0 Explicit k)).
  { eexists _, _. split; [reflexivity|]. eexists _, _. split; reflexivity. }
  destruct Ev as (e & h' & Ev & t & kk & Et & Eo).
  assert (Hrun : forall cf, explicitOperation_dt (cx1 Qc phi) h (Expression [0] []) 1%Qc [0%Qc] (Ok [1%Qc]) /\
     (temporal_explicit (cx1 Qc phi) 1%Qc (TemporalOp 0 Explicit cf) [0%Qc] (Ok [1%Qc]))).
  { intros cf.
    assert (Ht : forall co, temporal_explicit (cx1 Qc phi) 1%Qc (TemporalOp 0 Explicit co) [0%Qc] (Ok [1%Qc])).
    { intros co. unfold temporal_explicit. simpl.
      pose proof (C38_ddt_explicit cell1 cell1_topology SerialExecutor co 1%Qc [1%Qc] [0%Qc] [0%Qc] eq_refl eq_refl eq_refl) as Ha.
      eexists. split; [apply Ha; reflexivity|]. simpl. do 2 f_equal. }
    split; [|apply Ht]. unfold explicitOperation_dt. simpl. left. exists [1%Qc]. split; [apply Ht|done]. }
  specialize (HH (cx1 Qc phi) h (Q2Qc 2) 1%Qc 0 _ e h' (cx1_fits _ _) eq_refl eq_refl eq_refl eq_refl Ev [0%Qc] [1%Qc] [1%Qc] eq_refl).
  specialize (HH (proj1 (Hrun coeff_default))).
  assert (H2 : explicitOperation_dt (cx1 Qc phi) h' e 1%Qc [0%Qc] (Ok [1%Qc])).
  { unfold explicitOperation_dt. rewrite Et. simpl. rewrite Eo. simpl.
    left. exists [1%Qc]. split; [apply Hrun|done]. }
  specialize (HH H2 0 ltac:(simpl; lia)). apply (f_equal this) in HH. vm_compute in HH. discriminate.
Qed.
Print Assumptions C83_ddt_coefficient_refuted.
