(** C46: the system assembled from an equation. *)
From Verif Require Import Base Dict Registry Par Exec Reduce ReduceProofs Value Kernel KernelProofs Ticket Mesh MeshSpec Coeff FV FVSpec FVProofs FVProps
  Sparsity SparsitySpec SparsityMain SparsityProps Assembly AssemblySpec AssemblyProofs AssemblyProps ExampleMesh Properties_Sparsity Properties_Assembly
  Dsl DslSpec DslHeapProofs DslProofs DslAssembly DslFresh Properties_Dsl.

(** Every operator the equation names fits, and is of a kind that reaches the
    assembly (C39); time derivatives are implicit. *)
Definition spatial_supported {V} `{ValueTag V} (o : spatialOp V) : Prop :=
  match so_kind o, so_type o with
  | DivOperator _ _ _, Explicit => (vtag : vty) = VScalar
  | DivOperator _ _ _, Implicit => True
  | LaplacianOperator _ _ _, _ => True
  | SurfaceIntegrate _, Explicit => True
  | _, _ => False
  end.
Definition equation_supported {V} `{ValueTag V} (cx : ctx V) (h : heap V) (eqn : equation) : Prop :=
  (forall p o, p ∈ spatial_objects eqn -> h_spatial h !! p = Some o -> kind_fits cx (so_kind o) /\ spatial_supported o) /\
  (forall p o, p ∈ temporal_objects eqn -> h_temporal h !! p = Some o ->
     to_type o = Implicit /\ length (cx_old cx (to_phi o)) = nCells (cx_mesh cx)).

Lemma supported_leaves {V} `{ValueLaws V} `{!ValueUnit V} `{!UnitLaws V} `{!ValueTag V} (cx : ctx V) dt h eqn :
  cx_fits cx -> equation_supported cx h eqn ->
  explicit_leaves cx h (explicit_kind cx) eqn /\ implicit_leaves cx h (implicit_kind cx) eqn /\
  implicit_leaves_T cx dt h (implicit_ddt cx dt) eqn /\
  (forall q o, q ∈ temporal_objects eqn -> h_temporal h !! q = Some o -> to_type o = Implicit).
Proof.
  intros Hcx [Hs Ht]. split; [|split; [|split]].
  - intros p o Hp Eo Et. destruct (Hs p o Hp Eo) as [Hk Hsup]. unfold spatial_supported in Hsup. rewrite Et in Hsup.
    apply C39_explicit; [done|done|]. by destruct (so_kind o).
  - intros p o Hp Eo Et. destruct (Hs p o Hp Eo) as [Hk Hsup]. unfold spatial_supported in Hsup. rewrite Et in Hsup.
    apply C39_implicit; [done|done|]. by destruct (so_kind o).
  - intros p o Hp Eo Et. destruct (Ht p o Hp Eo) as [_ Hl]. by apply C39_ddt_implicit.
  - intros p o Hp Eo. by destruct (Ht p o Hp Eo).
Qed.

(** The system assembled for an equation of the library's operators: its residual
    at x is the text of the equation, with x in the implicit operators and the
    current fields in the explicit ones, integrated over the cell; whatever the
    system held before. *)
Theorem C46_assemble : forall {V} `{ValueLaws V} `{!ValueUnit V} `{!UnitLaws V} `{!ValueTag V} (cx : ctx V) h eqn dt,
  cx_fits cx -> equation_wf h (nCells (cx_mesh cx)) eqn -> single_fields h eqn -> equation_supported cx h eqn ->
  exists e h', eval_equation eqn h = Ok (e, h') /\
  forall values rhs, sys_ok (cx_mesh cx) (cx_pattern cx) values rhs -> exists values' rhs',
    surely (assemble cx h' e dt [values; rhs]) [values'; rhs'] /\
    sys_ok (cx_mesh cx) (cx_pattern cx) values' rhs' /\
    forall x c, c < nCells (cx_mesh cx) -> residual (cx_pattern cx) values' rhs' x c =
      equation_value
        (object_value h (fun k => vscale (at0 (cellVolumes (cx_mesh cx)) c) (explicit_kind cx k c)) (fun k => implicit_kind cx k x c) c)
        (object_value_T h (fun _ => vzero) (fun phi => implicit_ddt cx dt phi x c) c) c eqn.
Proof.
  intros V ? ? ? ? ? cx h eqn dt Hcx Hwf Hsf Hsup.
  destruct (supported_leaves cx dt h eqn Hcx Hsup) as (H1 & H2 & H3 & H4).
  destruct (assembled cx h eqn (proj1 Hcx) Hwf Hsf _ _ _ dt H1 H2 H3 H4) as (e & h1 & E & _ & HA).
  exists e, h1. split; [done|]. exact HA.
Qed.
Print Assumptions C46_assemble.

(** The same for operators of any kind, user-defined ones included, with given
    meanings. *)
Theorem C46_assemble_any : forall {V} `{ValueLaws V} `{!ValueUnit V} `{!UnitLaws V} `{!ValueTag V} (cx : ctx V) h eqn dt GE GI GT,
  valid_topology (cx_mesh cx) -> equation_wf h (nCells (cx_mesh cx)) eqn -> single_fields h eqn ->
  explicit_leaves cx h GE eqn -> implicit_leaves cx h GI eqn -> implicit_leaves_T cx dt h GT eqn ->
  (forall q o, q ∈ temporal_objects eqn -> h_temporal h !! q = Some o -> to_type o = Implicit) ->
  exists e h', eval_equation eqn h = Ok (e, h') /\
  forall values rhs, sys_ok (cx_mesh cx) (cx_pattern cx) values rhs -> exists values' rhs',
    surely (assemble cx h' e dt [values; rhs]) [values'; rhs'] /\
    forall x c, c < nCells (cx_mesh cx) -> residual (cx_pattern cx) values' rhs' x c =
      equation_value
        (object_value h (fun k => vscale (at0 (cellVolumes (cx_mesh cx)) c) (GE k c)) (fun k => GI k x c) c)
        (object_value_T h (fun _ => vzero) (fun phi => GT phi x c) c) c eqn.
Proof.
  intros V ? ? ? ? ? cx h eqn dt GE GI GT Hm Hwf Hsf H1 H2 H3 H4.
  destruct (assembled cx h eqn Hm Hwf Hsf _ _ _ dt H1 H2 H3 H4) as (e & h1 & E & _ & HA).
  exists e, h1. split; [done|]. intros v r Hs. destruct (HA v r Hs) as (v' & r' & ? & _ & ?). eauto.
Qed.
Print Assumptions C46_assemble_any.

(** The system solve() builds (without time derivative), if the pattern it
    constructs is the one the operators use. *)
Theorem C46_solve_system : forall {V} `{ValueLaws V} `{!ValueUnit V} `{!UnitLaws V} `{!ValueTag V} (cx : ctx V) h eqn,
  cx_fits cx -> equation_wf h (nCells (cx_mesh cx)) eqn -> single_fields h eqn -> equation_supported cx h eqn ->
  exists e h' values rhs, eval_equation eqn h = Ok (e, h') /\
    surely (solve_system cx h' e (cx_pattern cx)) [values; rhs] /\
    forall x c, c < nCells (cx_mesh cx) -> residual (cx_pattern cx) values rhs x c =
      equation_value
        (object_value h (fun k => vscale (at0 (cellVolumes (cx_mesh cx)) c) (explicit_kind cx k c)) (fun k => implicit_kind cx k x c) c)
        (fun _ => vzero) c eqn.
Proof.
  intros V ? ? ? ? ? cx h eqn Hcx Hwf Hsf Hsup.
  destruct (supported_leaves cx 1%Qc h eqn Hcx Hsup) as (H1 & H2 & _ & _).
  destruct Hcx as (Hm & Hp & _).
  destruct (solve_assembled cx h eqn Hm Hwf Hsf _ _ H1 H2 Hp) as (e & h1 & E & _ & v & r & A1 & _ & A3).
  exists e, h1, v, r. done.
Qed.
Print Assumptions C46_solve_system.

(** ** An equation with an explicit time derivative: its contribution is
    multiplied by the cell volume twice (ddtOperator.cpp:29 and
    expression.hpp:95). *)
Definition cell2V : mesh :=
  Mesh [] [Q2Qc 2] [Vec 0 0 0] [Vec (-(1)) 0 0; Vec 1 0 0] [] [1%Qc; 1%Qc] [0; 0] [] 1 0 2 2 2
    (BoundaryMesh [0; 0] [] [] [] [] [] [] [] [] [0; 1; 2]).
Lemma cell2V_topology : valid_topology cell2V.
Proof.
  split; try done; try (intros f Hf; simpl in Hf; lia).
  - intros [|[|b]] Hb; simpl in Hb; try lia; vm_compute; lia.
  - intros [|[|b]] Hb; simpl in Hb; try lia; reflexivity.
Qed.
Lemma cell2V_pattern : pattern_rows cell2V pat1 /\ pattern_located cell2V pat1.
Proof.
  destruct pat1_ok as [[a1 a2 a3 a4 a5 a6 a7 a8 a9] [b1 b2 b3 b4]]. split; constructor; try assumption.
Qed.
Definition cx2 (phi : volField Qc) : ctx Qc :=
  Ctx SerialExecutor cell2V [1; 1]%Qc [1; 1]%Qc pat1 (fun _ => [1; 1]%Qc) (fun _ => [0; 0]%Qc) (fun _ => phi) (fun _ => [1%Qc])
      (fun _ => [0%Qc]) (fun _ => "flux"%string) (fun _ => "phi"%string).
Lemma cx2_fits phi : cx_fits (cx2 phi).
Proof.
  destruct cell2V_pattern as [Hp Hpl]. split; [apply cell2V_topology|]. split; [done|]. split; [done|].
  split; [done|]. split; [done|]. split; [done|]. by left.
Qed.
Theorem C83_explicit_ddt_assembly_refuted : ~ forall (cx : ctx Qc) h q o dt values rhs values' rhs',
  cx_fits cx -> h_temporal h !! q = Some o -> o = TemporalOp (to_phi o) Explicit coeff_default ->
  field_ok (cx_mesh cx) (cx_vol cx (to_phi o)) -> length (cx_old cx (to_phi o)) = nCells (cx_mesh cx) ->
  sys_ok (cx_mesh cx) (cx_pattern cx) values rhs ->
  assemble cx h (Expression [q] []) dt [values; rhs] (Ok [values'; rhs']) ->
  forall x c, c < nCells (cx_mesh cx) -> residual (cx_pattern cx) values' rhs' x c =
    (at0 (cellVolumes (cx_mesh cx)) c * ((at0 (vf_int (cx_vol cx (to_phi o))) c - at0 (cx_old cx (to_phi o)) c) / dt))%Qc.
Proof.
  intros HH.
  set (phi := VolField [1%Qc] [0; 0]%Qc [0; 0]%Qc [1; 1]%Qc [0; 0]%Qc).
  set (h := Heap (V := Qc) [] [TemporalOp 0 Explicit coeff_default]).
  assert (Hrun : exists v r, assemble (cx2 phi) h (Expression [0] []) 1%Qc [[0%Qc]; [0%Qc]] (Ok [v; r]) /\
     residual pat1 v r [0%Qc] 0 = Q2Qc 4).
  { destruct (subtract_source_contributes SerialExecutor cell2V pat1 [Q2Qc 2] cell2V_topology eq_refl [0%Qc] [0%Qc])
      as (v & r & A1 & A2 & A3); [done|].
    exists v, r. split.
    - unfold assemble. left. exists [0%Qc]. split; [reflexivity|].
      left. exists [Q2Qc 2]. split.
      { unfold explicitOperation_dt. simpl. left. exists [Q2Qc 2]. split; [|done].
        pose proof (C38_ddt_explicit cell2V cell2V_topology SerialExecutor coeff_default 1%Qc [1%Qc] [0%Qc] [0%Qc] eq_refl eq_refl eq_refl) as Ha.
        eexists. split; [apply Ha; reflexivity|]. simpl. do 2 f_equal. }
      left. eexists. split; [reflexivity|]. left. eexists. split; [reflexivity|].
      by apply A1.
    - rewrite A3 by (simpl; lia). apply Qc_is_canon. vm_compute. reflexivity. }
  destruct Hrun as (v & r & Hrun & Hres).
  assert (E : residual pat1 v r [0%Qc] 0 = Q2Qc 2).
  { etransitivity; [apply (HH (cx2 phi) h 0 (TemporalOp 0 Explicit coeff_default) 1%Qc [0%Qc] [0%Qc] v r (cx2_fits phi) eq_refl eq_refl (conj eq_refl eq_refl) eq_refl (conj eq_refl eq_refl) Hrun [0%Qc] 0); simpl; lia|].
    apply Qc_is_canon. vm_compute. reflexivity. }
  rewrite E in Hres. apply (f_equal this) in Hres. vm_compute in Hres. discriminate.
Qed.
Print Assumptions C83_explicit_ddt_assembly_refuted.

(** ** setReference: a solution that has the reference value in the reference cell
    stays a solution; the other rows do not change. *)
Theorem C46_set_reference : forall {V} `{ValueLaws V} `{!ValueUnit V} `{!UnitLaws V} `{!ValueTag V} (cx : ctx V) refCell refValue values rhs,
  pattern_rows (cx_mesh cx) (cx_pattern cx) -> pattern_located (cx_mesh cx) (cx_pattern cx) ->
  sys_ok (cx_mesh cx) (cx_pattern cx) values rhs -> refCell < nCells (cx_mesh cx) ->
  exists values' rhs', setReference cx refCell refValue [values; rhs] = Some [values'; rhs'] /\
    sys_ok (cx_mesh cx) (cx_pattern cx) values' rhs' /\
    (forall x c, c < nCells (cx_mesh cx) -> c <> refCell \/ atV x refCell = refValue ->
      residual (cx_pattern cx) values' rhs' x c = residual (cx_pattern cx) values rhs x c) /\
    (forall x, residual (cx_pattern cx) values' rhs' x refCell =
      vadd (residual (cx_pattern cx) values rhs x refCell)
        (vmul (atV values (loc_slot (cx_mesh cx) (cx_pattern cx) (Diag refCell))) (vsub (atV x refCell) refValue))).
Proof.
  intros V HT0 HL0 HU0 HUL0 HG0 cx rc rv values rhs Hp Hpl [Hv Hr] Hrc. set (m := cx_mesh cx) in *. set (p := cx_pattern cx) in *.
  pose proof (pl_in_row m p Hpl (Diag rc) Hrc) as Hin. cbn [loc_row] in Hin.
  pose proof (pl_col m p Hpl (Diag rc) Hrc) as Hcol.
  assert (Hslot : loc_slot m p (Diag rc) < length values).
  { rewrite Hv. apply lookup_lt_Some in Hcol. exact Hcol. }
  set (s := loc_slot m p (Diag rc)) in *. set (d := atV values s).
  exists (<[s := vadd d d]> values), (<[rc := vadd (atV rhs rc) (vmul d rv)]> rhs).
  assert (Hmat : forall x c, c < nCells m -> mat_row p (<[s := vadd d d]> values) x c =
     if decide (c = rc) then vadd (mat_row p values x c) (vmul d (atV x rc)) else mat_row p values x c).
  { intros x c Hc. rewrite !(mat_row_mesh m p Hp Hpl) by done.
    assert (Hoff : forall l, loc_valid m l -> l <> Diag rc -> atV (<[s := vadd d d]> values) (loc_slot m p l) = atV values (loc_slot m p l)).
    { intros l Hl Hne. unfold atV. rewrite list_lookup_insert_ne; [done|]. intros E. apply Hne. symmetry. by apply (pl_inj m p Hpl). }
    rewrite (vsum_over_ext (nInternalFaces m) (fun f => if decide (atn (faceOwner m) f = c) then vmul (atV (<[s := vadd d d]> values) (loc_slot m p (Upper f))) (atV x (atn (faceNeighbour m) f)) else vzero)
      (fun f => if decide (atn (faceOwner m) f = c) then vmul (atV values (loc_slot m p (Upper f))) (atV x (atn (faceNeighbour m) f)) else vzero)).
    2:{ intros f Hf. by rewrite Hoff. }
    rewrite (vsum_over_ext (nInternalFaces m) (fun f => if decide (atn (faceNeighbour m) f = c) then vmul (atV (<[s := vadd d d]> values) (loc_slot m p (Lower f))) (atV x (atn (faceOwner m) f)) else vzero)
      (fun f => if decide (atn (faceNeighbour m) f = c) then vmul (atV values (loc_slot m p (Lower f))) (atV x (atn (faceOwner m) f)) else vzero)).
    2:{ intros f Hf. by rewrite Hoff. }
    destruct (decide (c = rc)) as [->|Hne].
    - assert (atV (<[s := vadd d d]> values) (loc_slot m p (Diag rc)) = vadd d d) as ->.
      { unfold atV. fold s. by rewrite list_lookup_insert. }
      fold s. fold d. rewrite vmul_add_l. rewrite <- !vadd_assoc. f_equal. rewrite (vadd_comm (vmul d (atV x rc))), <- vadd_assoc. done.
    - by rewrite (Hoff (Diag c)) by (done || congruence). }
  split; [|split; [|split]].
  - unfold setReference. fold p.
    assert (sp_rowPtrs p !! rc = Some (atn (sp_rowPtrs p) rc)) as ->.
    { unfold atn. destruct (lookup_lt_is_Some_2 (sp_rowPtrs p) rc) as [y Hy]; [rewrite (pr_rp_len _ _ Hp); lia|]. by rewrite Hy. }
    assert (sp_diagOffset p !! rc = Some (atn (sp_diagOffset p) rc)) as ->.
    { unfold atn. destruct (lookup_lt_is_Some_2 (sp_diagOffset p) rc) as [y Hy]; [pose proof (pr_rows _ _ Hp) as E; unfold sp_rows in E; lia|]. by rewrite Hy. }
    cbn [mbind option_bind]. change (atn (sp_rowPtrs p) rc + atn (sp_diagOffset p) rc) with s.
    rewrite (lookup_atV values s) by done. cbn [mbind option_bind]. rewrite (lookup_atV rhs rc) by lia. done.
  - split; rewrite insert_length; done.
  - intros x c Hc Hor. unfold residual. rewrite Hmat by done. destruct (decide (c = rc)) as [->|Hne].
    + destruct Hor as [|Hx]; [done|]. assert (atV (<[rc := vadd (atV rhs rc) (vmul d rv)]> rhs) rc = vadd (atV rhs rc) (vmul d rv)) as ->.
      { unfold atV at 1. rewrite list_lookup_insert by lia. done. }
      rewrite Hx. unfold vsub. rewrite vneg_add, (vadd_comm (vneg (atV rhs rc))), <- !vadd_assoc. f_equal.
      rewrite vadd_assoc, vadd_neg, vadd_0_l. done.
    + f_equal. unfold atV. by rewrite list_lookup_insert_ne.
  - intros x. unfold residual. rewrite Hmat by done. rewrite decide_True by done.
    assert (atV (<[rc := vadd (atV rhs rc) (vmul d rv)]> rhs) rc = vadd (atV rhs rc) (vmul d rv)) as ->.
    { unfold atV at 1. rewrite list_lookup_insert by lia. done. }
    fold s. fold d. pose proof (V_ring (V := V)) as R. clear -R HL0 HUL0.
    assert (E : vmul d (vsub (atV x rc) rv) = vsub (vmul d (atV x rc)) (vmul d rv)).
    { unfold vsub. rewrite (vmul_comm d), vmul_add_l, (vmul_comm _ d). f_equal.
      rewrite <- (vscale_1 rv) at 1. rewrite <- vscale_opp, vmul_scale_l, vscale_opp, vscale_1. by rewrite vmul_comm. }
    rewrite E. unfold vsub. rewrite vneg_add, <- !vadd_assoc. f_equal.
    rewrite !vadd_assoc. f_equal. apply vadd_comm.
Qed.
Print Assumptions C46_set_reference.

(** ** solve() assembles into a new pattern with the offsets of the cached one
    (solver.hpp:66, gaussGreenDiv.cpp:160): on a parallel executor the two can
    order the columns of a row differently, and the system is wrong. *)
(** Cells 1 - 0 - 2; cell 0 owns both internal faces. *)
Definition fork3 : mesh :=
  Mesh [] [1; 1; 1]%Qc [Vec 0 0 0; Vec (-(1)) 0 0; Vec 1 0 0] [Vec (-(1)) 0 0; Vec 1 0 0; Vec (-(1)) 0 0; Vec 1 0 0] [] [1; 1; 1; 1]%Qc
    [0; 0; 1; 2] [1; 2] 3 2 2 2 4
    (BoundaryMesh [1; 2] [] [] [] [] [] [] [] [1; 1]%Qc [0; 1; 2]).
Lemma fork3_topology : valid_topology fork3.
Proof.
  split; try done.
  - intros [|[|f]] Hf; simpl in Hf; try lia; vm_compute; lia.
  - intros [|[|f]] Hf; simpl in Hf; try lia; vm_compute; lia.
  - intros [|[|b]] Hb; simpl in Hb; try lia; vm_compute; lia.
  - intros [|[|[|b]]] Hb; simpl in Hb; try lia; reflexivity.
Qed.
Lemma fork3_once : boundary_once fork3.
Proof. intros [|[|b]] [|[|b']] Hb Hb' E; simpl in Hb, Hb'; try lia; vm_compute in E; lia. Qed.
Lemma fork3_fit : rows_fit fork3.
Proof. intros [|[|[|c]]] Hc; simpl in Hc; try lia; vm_compute; lia. Qed.
Definition patA : sparsity := Sparsity [0; 3; 5; 7] [0; 1; 2; 0; 1; 0; 2] [1; 2] [0; 0] [0; 1; 1].
Definition patB : sparsity := Sparsity [0; 3; 5; 7] [0; 2; 1; 0; 1; 0; 2] [2; 1] [0; 0] [0; 1; 1].
Ltac create_fork3 s :=
  unfold sp_create, sp_update;
  one_schedule [0;0;1;1];
  exists [[0;1;2]], [0]; split; [apply (serial_plan 3)|];
  cbn beta iota; match goal with |- context [segmentsFromIntervals ?a ?b ?c ?d] =>
    let x := eval vm_compute in (segmentsFromIntervals a b c d) in change (segmentsFromIntervals a b c d) with x end;
  cbn beta iota;
  one_schedule [0;1;2];
  one_schedule [0;0;0;1;1;1];
  one_schedule [0;0;0;0;1;1;1;1;2;2;2;2];
  one_schedule s; reflexivity.
Lemma patA_created : sp_create CPUExecutor fork3 (Ok patA).
Proof. create_fork3 [0;0;0;1;1;1]. Qed.
Lemma patB_created : sp_create CPUExecutor fork3 (Ok patB).
Proof. create_fork3 [1;1;1;0;0;0]. Qed.
Definition phi3 : volField Qc := VolField [1; 0; Q2Qc 3]%Qc [0; 0]%Qc [0; 1]%Qc [1; 0]%Qc [0; 1]%Qc.
(** Flux -1 through the face between 0 and 1 (that is, from 1 to 0), 0 elsewhere. *)
Definition cx3 : ctx Qc :=
  Ctx CPUExecutor fork3 [1; 1; 1; 1]%Qc [1; 1; 1; 1]%Qc patA (fun _ => [-(1); 0; 0; 0]%Qc) (fun _ => [0; 0; 0; 0]%Qc) (fun _ => phi3)
      (fun _ => [1; 1; 1]%Qc) (fun _ => [1; 1; 1]%Qc) (fun _ => "flux"%string) (fun _ => "phi"%string).
Lemma cx3_fits : cx_fits cx3.
Proof.
  destruct (C29_pattern fork3 CPUExecutor (valid_connectivity _ fork3_topology) fork3_fit) as [_ Hc].
  destruct (Hc _ patA_created) as (p & E & Hp & Hpl). injection E as <-.
  split; [apply fork3_topology|]. split; [done|]. split; [done|]. split; [done|]. split; [done|]. split; [done|].
  right. apply fork3_once.
Qed.
Definition heap3 : heap Qc :=
  Heap [SpatialOp (DivOperator 0 0 (Some Upwind)) Implicit coeff_default;
        SpatialOp (LaplacianOperator 1 0 true) Explicit (coeff_scalar (Q2Qc 2))]
       [TemporalOp 0 Implicit coeff_default].

(** The hypotheses of the theorems above hold of, for instance,
    ddt(phi) + div(flux, phi) - 2 * laplacian(gamma, phi) with an explicit
    Laplacian, on an executor with several threads. *)
Example C46_instance : exists e h', eval_equation (EMinusOp (EOpPlus (TermT (TVar 0)) (TermS (SVar 0))) (SScalar (Q2Qc 2) (SVar 1))) heap3 = Ok (e, h') /\
  forall values rhs, sys_ok fork3 patA values rhs -> exists values' rhs',
    surely (assemble cx3 h' e (Q2Qc 2) [values; rhs]) [values'; rhs'].
Proof.
  destruct (C46_assemble cx3 heap3 (EMinusOp (EOpPlus (TermT (TVar 0)) (TermS (SVar 0))) (SScalar (Q2Qc 2) (SVar 1))) (Q2Qc 2) cx3_fits) as (e & h' & E & HA).
  - split; [split|]; eexists; split; reflexivity || done.
  - cbn. split; [split|]; lia.
  - split.
    + intros p o Hp Eo. simpl in Hp. rewrite !elem_of_cons in Hp. destruct Hp as [->|[->|Hp]]; [| |by apply elem_of_nil in Hp];
        injection Eo as <-; split; try done; repeat split; try done.
    + intros p o Hp Eo. simpl in Hp. rewrite !elem_of_cons in Hp. destruct Hp as [->|Hp]; [|by apply elem_of_nil in Hp].
      injection Eo as <-. done.
  - exists e, h'. split; [done|]. intros v r Hs. destruct (HA v r Hs) as (v' & r' & ? & _). eauto.
Qed.

(** The same equation meets the hypotheses of C39 and C45. *)
Example C39_C45_instance :
  kind_fits cx3 (DivOperator 0 0 (Some Upwind)) /\ kind_fits cx3 (LaplacianOperator 1 0 true) /\
  exists e h', eval_equation (EMinusOp (EOpPlus (TermT (TVar 0)) (TermS (SVar 0))) (SScalar (Q2Qc 2) (SVar 1))) heap3 = Ok (e, h') /\
    preserved heap3 h' /\
    surely (explicitOperation cx3 h' e [0; 0; 0]%Qc)
      (map (fun c => 0 + (0 + 0 - Q2Qc 2 * (Q2Qc 2 * explicit_kind cx3 (LaplacianOperator 1 0 true) c)))%Qc [0; 1; 2]).
Proof.
  split; [repeat split; discriminate|]. split; [repeat split|].
  destruct (C45_explicit cx3 heap3 (EMinusOp (EOpPlus (TermT (TVar 0)) (TermS (SVar 0))) (SScalar (Q2Qc 2) (SVar 1))) (explicit_kind cx3)) as (e & h' & E & Hp & HA).
  - split; [split|]; eexists; split; reflexivity || done.
  - cbn. split; [split|]; lia.
  - intros p o Hp Eo Et. simpl in Hp. rewrite !elem_of_cons in Hp. destruct Hp as [->|[->|Hp]]; [| |by apply elem_of_nil in Hp];
      injection Eo as <-; [discriminate|]. apply C39_explicit; [apply cx3_fits|repeat split|done].
  - exists e, h'. split; [done|]. split; [done|]. intros r. rewrite (HA [0; 0; 0]%Qc eq_refl r). simpl.
    split; intros ->; do 2 f_equal; repeat (f_equal; try (simpl; ring)).
Qed.

Theorem C84_solve_fresh_pattern_refuted : ~ forall (cx : ctx Qc) h eqn e h' fresh values rhs,
  cx_fits cx -> equation_wf h (nCells (cx_mesh cx)) eqn -> single_fields h eqn -> equation_supported cx h eqn ->
  sp_create (cx_exec cx) (cx_mesh cx) (Ok (cx_pattern cx)) -> sp_create (cx_exec cx) (cx_mesh cx) (Ok fresh) ->
  eval_equation eqn h = Ok (e, h') -> solve_system cx h' e fresh (Ok [values; rhs]) ->
  forall x c, c < nCells (cx_mesh cx) -> residual fresh values rhs x c =
    equation_value
      (object_value h (fun k => vscale (at0 (cellVolumes (cx_mesh cx)) c) (explicit_kind cx k c)) (fun k => implicit_kind cx k x c) c)
      (fun _ => vzero) c eqn.
Proof.
  intros HH. set (eqn := EVar (Expression [] [0])).
  assert (W : equation_wf heap3 (nCells (cx_mesh cx3)) eqn).
  { split; constructor; [|constructor]. eexists; split; reflexivity || done. }
  assert (U : equation_supported cx3 heap3 eqn).
  { split; intros p o Hp Eo; simpl in Hp.
    - apply elem_of_list_singleton in Hp as ->. injection Eo as <-. split; [|done]. repeat split; try done; discriminate.
    - by apply elem_of_nil in Hp. }
  destruct (C46_solve_system cx3 heap3 eqn cx3_fits W I U) as (e & h' & v & r & E & A1 & A2).
  assert (Hrun : solve_system cx3 h' e patB (Ok [v; r])) by (apply A1; reflexivity).
  pose proof (HH cx3 heap3 eqn e h' patB v r cx3_fits W I U patA_created patB_created E Hrun [0; 1; 0]%Qc 0 ltac:(simpl; lia)) as HB.
  pose proof (A2 [0; 0; 1]%Qc 0 ltac:(simpl; lia)) as HA.
  assert (Hsame : residual patB v r [0; 1; 0]%Qc 0 = residual patA v r [0; 0; 1]%Qc 0).
  { unfold residual, mat_row. simpl. unfold atV at 2 4 6 9 11 13. simpl. f_equal. }
  change (residual (cx_pattern cx3) v r [0; 0; 1]%Qc 0) with (residual patA v r [0; 0; 1]%Qc 0) in HA.
  rewrite Hsame, HA in HB. apply (f_equal this) in HB. vm_compute in HB. discriminate.
Qed.
Print Assumptions C84_solve_fresh_pattern_refuted.
