(** C120: equation objects (fvcc::Expression) in a program. *)
From Verif Require Import Base Dict Registry Par Exec Fields Value Kernel Mesh MeshSpec Coeff FV FVSpec Sparsity SparsitySpec Assembly AssemblySpec Boundary Dsl DslSpec DslHeapProofs DslProofs DslFresh DslAssembly Properties_Dsl Properties_DslAssembly
  TimeInt TimeSpec Properties_TimeInt Transport Properties_Transport ExampleMesh Properties_Sparsity Properties_Assembly EquationObj EquationSpec EquationProofs.
Local Open Scope nat_scope.

Section laws.
  Context {V : Type} {VT : ValueType V} {VL : ValueLaws V} {VU : ValueUnit V} {VUL : UnitLaws V} {VG : ValueTag V}.

  Lemma history_app ops1 ops2 (w w' : world V) : history (ops1 ++ ops2) w w' <-> exists w1, history ops1 w w1 /\ history ops2 w1 w'.
  Proof.
    revert w. induction ops1 as [|op ops1 IH]; intros w; simpl.
    - split; [intros Hh; exists w; split; [constructor|done]|]. intros (w1 & H1 & H2). by inversion H1; subst.
    - split.
      + intros Hh. inversion Hh as [|? ? ? wa ? Hs Hr]; subst. apply IH in Hr as (w1 & H1 & H2). exists w1. split; [by econstructor|done].
      + intros (w1 & H1 & H2). inversion H1 as [|? ? ? wa ? Hs Hr]; subst. econstructor; [done|]. apply IH. by exists w1.
  Qed.

  (** The object holds its equation and a system of the right shape. *)
  Definition kept (cx0 : ctx V) sel h1 t (w : world V) j : Prop :=
    holds (nCells (cx_mesh cx0)) h1 t sel w j /\
    exists o values rhs, w_eqns w !! j = Some (Some o) /\ eo_ls o = [values; rhs] /\ sys_ok (cx_mesh cx0) (cx_pattern cx0) values rhs.
  Lemma history_kept cx0 sel h1 t j ops (w w' : world V) : history ops w w' -> Inv w -> FreeEqn j ∉ ops ->
    (forall cx dt, Assemble j cx dt ∈ ops -> good_context cx0 sel h1 t cx) ->
    kept cx0 sel h1 t w j -> kept cx0 sel h1 t w' j.
  Proof.
    induction 1 as [|op ops w w1 w2 Hs Hh IH]; intros HI Hnf Hgood Hk; [done|].
    apply not_elem_of_cons in Hnf as [Hn1 Hn2].
    apply IH; [by apply (step_inv op w)|done|intros cx dt Hin; apply (Hgood cx dt); by right|].
    destruct Hk as [Hh1 (o & v & b & Hj & El & Hsys)]. split; [by apply (step_holds op _ _ _ _ w)|].
    destruct (step_eqn op w w1 j o Hs Hj (not_eq_sym Hn1)) as (o' & Hj' & Ee & [->|[(cx & dt & -> & Ha)|(ls & -> & Hl & El')]]).
    - by exists o, v, b.
    - destruct (Hgood cx dt ltac:(left)) as (Hcx & Em & Ep & Has).
      destruct (assembled_holds (nCells (cx_mesh cx0)) h1 t sel w j cx0 cx dt o v b) as (v' & b' & Hsure & Hsys' & _); try done.
      { by rewrite Em. } { by rewrite Em, Ep. }
      apply Hsure in Ha. injection Ha as Ha. rewrite Em, Ep in Hsys'. by exists o', v', b'.
    - rewrite El in Hl. destruct ls as [|v' [|b' [|]]]; try done. cbn in Hl. injection Hl as L1 L2. destruct Hsys as [S1 S2].
      exists o', v', b'. split; [done|]. split; [done|]. split; congruence.
  Qed.
End laws.

(** An equation object is a snapshot of the text it was made from: whatever the
    program does afterwards to the operators and expressions it used (scaling,
    building, appending), to other equation objects or to its system, assembling
    it gives the system of the text as it was when the object was constructed,
    with the schemes selected then and the fields as they are at the call. *)
Theorem C120_snapshot : forall {V} `{ValueLaws V} `{!ValueUnit V} `{!UnitLaws V} `{!ValueTag V} (cx0 : ctx V) d sel t ops1 ops2 w1 w2 w3 j,
  history ops1 empty_world w1 -> wstep (NewEqn cx0 d t) w1 (Ok w2) -> j = length (w_eqns w1) -> history ops2 w2 w3 -> FreeEqn j ∉ ops2 ->
  equation_wf (w_heap w1) (nCells (cx_mesh cx0)) t -> selects cx0 d sel (w_heap w1) t ->
  (forall cx dt, Assemble j cx dt ∈ ops2 -> good_context cx0 sel (w_heap w1) t cx) ->
  forall cx dt, good_context cx0 sel (w_heap w1) t cx -> exists w4 values rhs,
    surely (wstep (Assemble j cx dt) w3) w4 /\ system w4 j = Some [values; rhs] /\
    (forall i, i <> j -> system w4 i = system w3 i) /\
    forall x c, c < nCells (cx_mesh cx0) -> residual (cx_pattern cx0) values rhs x c = text_value cx dt sel (w_heap w1) t x c.
Proof.
  intros V ? ? ? ? ? cx0 d sel t ops1 ops2 w1 w2 w3 j Hh1 Hnew -> Hh2 Hnf Hwf Hsel Hgood cx dt Hcx.
  pose proof (history_inv _ _ _ Hh1 empty_inv) as HI1. destruct (step_inv _ _ _ HI1 Hnew) as [HI2 _].
  destruct (construct_holds w1 w2 cx0 d t sel _ HI1 Hnew Hwf Hsel) as (o & Eq & Els & Hh).
  set (j := length (w_eqns w1)) in *.
  assert (Hk : kept cx0 sel (w_heap w1) t w2 j).
  { split; [done|]. exists o. do 2 eexists. split; [rewrite Eq; by apply list_lookup_middle|]. split; [exact Els|].
    destruct Hcx as ((_ & Hp & _) & Em & Ep & _). split; rewrite replicate_length; [done|].
    pose proof (pr_rows _ _ Hp) as Er. unfold sp_rows in Er. by rewrite Ep, Em in Er. }
  apply (history_kept cx0 sel (w_heap w1) t j ops2 w2 w3 Hh2 HI2 Hnf Hgood) in Hk as [Hh3 (o3 & v & b & Hj & El & Hsys)].
  pose proof Hcx as (_ & Em & Ep & _).
  destruct (assembled_holds (nCells (cx_mesh cx0)) (w_heap w1) t sel w3 j cx0 cx dt o3 v b) as (v' & b' & Hsure & Hsys' & Hres); try done.
  { by rewrite Em. } { by rewrite Em, Ep. }
  exists (set_eqn w3 j (Some (EqnObj (eo_expr o3) [v'; b']))), v', b'. pose proof (lookup_lt_Some _ _ _ Hj) as Hlt.
  split; [|split; [|split]].
  - intros r. cbn [wstep]. split.
    + intros (o4 & Hj4 & Hr). assert (o4 = o3) as -> by congruence. unfold rseq in Hr.
      destruct Hr as [(ls & Ha & ->)|[(x & Ha & _)|[[Ha _]|[Ha _]]]]; apply Hsure in Ha; try discriminate. by injection Ha as ->.
    + intros ->. exists o3. split; [done|]. left. exists [v'; b']. split; [by apply Hsure|done].
  - unfold system. cbn [set_eqn w_eqns]. by rewrite list_lookup_insert.
  - intros i Hi. unfold system. cbn [set_eqn w_eqns]. by rewrite list_lookup_insert_ne.
  - intros x c Hc. rewrite <- Ep. rewrite <- Em in Hc. by apply Hres.
Qed.
Print Assumptions C120_snapshot.

(** A new object has the zero system; the operators and expressions of the
    program are what they were (the ones in the text are not built), and so are the
    other objects.  So it is when the constructor throws. *)
Theorem C120_construction : forall {V} `{ValueLaws V} `{!ValueUnit V} `{!UnitLaws V} `{!ValueTag V} (cx0 : ctx V) d t ops1 w1 w2,
  history ops1 empty_world w1 -> wstep (NewEqn cx0 d t) w1 (Ok w2) ->
  w_ops w2 = w_ops w1 /\ w_exprs w2 = w_exprs w1 /\
  (forall p, OpS p ∈ reachable w1 -> h_spatial (w_heap w2) !! p = h_spatial (w_heap w1) !! p) /\
  (forall p, OpT p ∈ reachable w1 -> h_temporal (w_heap w2) !! p = h_temporal (w_heap w1) !! p) /\
  (forall i, i < length (w_eqns w1) -> w_eqns w2 !! i = w_eqns w1 !! i) /\ length (w_eqns w2) = S (length (w_eqns w1)) /\
  (forall s, system w2 (length (w_eqns w1)) = Some s ->
    s = [replicate (sp_nnz (cx_pattern cx0)) vzero; replicate (sp_rows (cx_pattern cx0)) vzero]).
Proof.
  intros V ? ? ? ? ? cx0 d t ops1 w1 w2 Hh1 Hnew. pose proof (history_inv _ _ _ Hh1 empty_inv) as HI1. pose proof HI1 as [I1 _].
  assert (Hname : names_only t (reachable w1)) by (by destruct Hnew).
  assert (Hx : exists o, w_ops w2 = w_ops w1 /\ w_exprs w2 = w_exprs w1 /\ w_eqns w2 = w_eqns w1 ++ [o] /\ frame (fun _ => False) (w_heap w1) (w_heap w2) /\
    match o with Some e => eo_ls e = [replicate (sp_nnz (cx_pattern cx0)) vzero; replicate (length (sp_diagOffset (cx_pattern cx0))) vzero] | None => True end).
  { destruct Hnew as [_ Hst]. unfold bind in Hst. destruct (eval_equation t (w_heap w1)) as [[e0 h0]| | |] eqn:E0; try done.
    - destruct (eval_frame (w_heap w1) t e0 h0) as [X0 [v V0]]; [intros p Hp; apply I1; by apply Hname|intros p Hp; apply I1; by apply Hname|done|].
      destruct (eqn_construct cx0 d e0 h0) as [[o h]| | |] eqn:E1; try done; injection Hst as ->.
      + exists (Some o). cbn. split; [done|]. split; [done|]. split; [done|]. destruct (eqn_construct_frame _ _ _ _ _ _ _ V0 E1) as [F1 _].
        split; [by apply (frame_trans _ _ h0); [apply ext_frame|]|].
        unfold eqn_construct, bind in E1. destruct (copyE e0 h0) as [[e1 h1]| | |]; try done. destruct (copyE e1 h1) as [[e2 h2]| | |]; try done.
        destruct (expr_build cx0 d e2 h2) as [[[] h3]| | |]; try done. cbn in E1. by injection E1 as <- _.
      + exists None. cbn. split; [done|]. split; [done|]. split; [done|]. split; [apply ext_frame, ext_refl|done].
    - injection Hst as ->. exists None. cbn. split; [done|]. split; [done|]. split; [done|]. split; [apply ext_frame, ext_refl|done]. }
  destruct Hx as (o & E1 & E2 & E3 & [_ F] & Eo). split; [done|]. split; [done|].
  split; [intros p Hp; apply (F (OpS p)); [by apply I1|tauto]|]. split; [intros p Hp; apply (F (OpT p)); [by apply I1|tauto]|].
  split; [intros i Hi; by rewrite E3, lookup_app_l|]. split; [rewrite E3, app_length; simpl; lia|].
  intros s. unfold system. rewrite E3, list_lookup_middle by done. destruct o as [o|]; [|done]. intros [= <-]. exact Eo.
Qed.
Print Assumptions C120_construction.

(** No statement of the program but the object's own assemble(), a write through
    its own linearSystem(), or its destruction, changes its system. *)
Theorem C120_system_kept : forall {V} `{ValueLaws V} `{!ValueUnit V} `{!UnitLaws V} `{!ValueTag V} ops (w w' : world V) j s,
  history ops w w' -> (forall cx dt, Assemble j cx dt ∉ ops) -> (forall ls, WriteSystem j ls ∉ ops) -> FreeEqn j ∉ ops ->
  system w j = Some s -> system w' j = Some s.
Proof.
  intros V ? ? ? ? ? ops w w' j s Hh. induction Hh as [|op ops w w1 w2 Hs Hh IH]; intros HA HW HF Hsys; [done|].
  apply IH; [intros cx dt Hc; apply (HA cx dt); by right|intros ls Hc; apply (HW ls); by right|intros Hc; apply HF; by right|].
  unfold system in Hsys. destruct (w_eqns w !! j) as [[o|]|] eqn:Ej; try done. injection Hsys as <-.
  destruct (step_eqn op w w1 j o Hs Ej) as (o' & Ej' & _ & [->|[(cx & dt & -> & _)|(ls & -> & _)]]).
  - intros ->. apply HF. left.
  - unfold system. by rewrite Ej'.
  - exfalso. apply (HA cx dt). left.
  - exfalso. apply (HW ls). left.
Qed.
Print Assumptions C120_system_kept.

(** What a call of assemble() on object j may end with: the system, an exception,
    termination. *)
Definition assembles {V} `{ValueType V} `{!ValueUnit V} `{!ValueTag V} (w : world V) (j : nat) (cx : ctx V) (dt : Qc) (r : outcome (list (list V))) : Prop :=
  exists r', wstep (Assemble j cx dt) w r' /\
    match r' with
    | Ok w' => exists ls, system w' j = Some ls /\ r = Ok ls
    | Throw x => r = Throw x | Exit => r = Exit | UB => r = UB
    end.

(** A copy has the system of its original, and assembles to the same as the
    original ever after, whatever else is done in between and whatever the
    operators are. *)
Theorem C120_copy : forall {V} `{ValueLaws V} `{!ValueUnit V} `{!UnitLaws V} `{!ValueTag V} ops1 ops2 (w1 w2 w3 : world V) j k,
  history ops1 empty_world w1 -> wstep (CopyEqn j) w1 (Ok w2) -> k = length (w_eqns w1) ->
  (exists s, system w1 j = Some s /\ system w2 j = Some s /\ system w2 k = Some s) /\
  (history ops2 w2 w3 -> FreeEqn j ∉ ops2 -> FreeEqn k ∉ ops2 ->
   forall sj sk, system w3 j = Some sj -> system w3 k = Some sk -> map length sj = map length sk ->
   forall cx dt r, assembles w3 j cx dt r <-> assembles w3 k cx dt r).
Proof.
  intros V ? ? ? ? ? ops1 ops2 w1 w2 w3 j k Hh1 Hc ->. pose proof (history_inv _ _ _ Hh1 empty_inv) as HI1. pose proof HI1 as [_ I2].
  destruct (step_inv _ _ _ HI1 Hc) as [HI2 _]. pose proof Hc as Hc0. destruct Hc as (o & Hj & Hst). apply step_with_inv in Hst as (o' & h & E & ->).
  destruct (live_isE (w_heap w1) (eo_expr o)) as [v V0]; [intros x Hx; by apply (I2 j o Hj)|].
  destruct (copyE_frame _ _ _ V0) as (e1 & h1 & E1 & X1 & V1 & O1). unfold eqn_copy in E. rewrite (bind_eq _ _ _ _ _ E1) in E. cbn in E. injection E as <- <-.
  pose proof (lookup_lt_Some _ _ _ Hj) as Hlt. split.
  { exists (eo_ls o). unfold system. cbn [push_eqn w_eqns]. rewrite lookup_app_l by done. rewrite Hj. split; [done|]. split; [done|]. by rewrite list_lookup_middle. }
  assert (Hboth : forall ops w w', history ops w w' -> Inv w -> FreeEqn j ∉ ops -> FreeEqn (length (w_eqns w1)) ∉ ops ->
    (exists a b, w_eqns w !! j = Some (Some a) /\ w_eqns w !! length (w_eqns w1) = Some (Some b) /\ isE (w_heap w) (eo_expr a) v /\ isE (w_heap w) (eo_expr b) v) ->
    (exists a b, w_eqns w' !! j = Some (Some a) /\ w_eqns w' !! length (w_eqns w1) = Some (Some b) /\ isE (w_heap w') (eo_expr a) v /\ isE (w_heap w') (eo_expr b) v)).
  { intros ops w w' Hh. induction Hh as [|op ops w wa wb Hs Hh IH]; intros HI HF1 HF2 Hab; [done|].
    apply not_elem_of_cons in HF1 as [F1 F1']. apply not_elem_of_cons in HF2 as [F2 F2'].
    apply IH; [by apply (step_inv op w)|done|done|]. destruct Hab as (a & b & Ha & Hb & Va & Vb).
    destruct (step_eqn op w wa _ a Hs Ha (not_eq_sym F1)) as (a' & Ha' & Ea & _). destruct (step_eqn op w wa _ b Hs Hb (not_eq_sym F2)) as (b' & Hb' & Eb & _).
    exists a', b'. split; [done|]. split; [done|]. rewrite Ea, Eb. split; [by apply (step_expr op w wa j)|by apply (step_expr op w wa (length (w_eqns w1)))]. }
  intros Hh2 HF1 HF2 sj sk Hsj Hsk El cx dt r.
  destruct (Hboth ops2 _ w3 Hh2 HI2 HF1 HF2) as (a & b & Ha & Hb & Va & Vb).
  { exists o, (EqnObj e1 (eo_ls o)). cbn [push_eqn w_eqns w_heap eo_expr]. rewrite lookup_app_l by done. split; [done|]. split; [by apply list_lookup_middle|].
    split; [by apply (isE_ext (w_heap w1))|done]. }
  set (k := length (w_eqns w1)) in *. clearbody k. clear - Ha Hb Va Vb El Hsj Hsk.
  unfold system in Hsj, Hsk. rewrite Ha in Hsj. rewrite Hb in Hsk. injection Hsj as <-. injection Hsk as <-.
  assert (Hgen : forall i a r, w_eqns w3 !! i = Some (Some a) -> assembles w3 i cx dt r <-> assemble cx (w_heap w3) (eo_expr a) dt (eo_ls a) r).
  { clear. intros i a r Ha. pose proof (lookup_lt_Some _ _ _ Ha) as Hlt. unfold assembles. cbn [wstep]. split.
    - intros (r' & (o & Ho & Hr) & Hm). assert (o = a) as -> by congruence.
      destruct Hr as [(ls & Hls & ->)|[(x & Hx & ->)|[[Hx ->]|[Hx ->]]]]; [|by subst..].
      destruct Hm as (ls' & Hs & ->). unfold system in Hs. cbn [set_eqn w_eqns] in Hs. rewrite list_lookup_insert in Hs by done. by injection Hs as <-.
    - intros Hr. destruct r as [ls|x| |].
      + exists (Ok (set_eqn w3 i (Some (EqnObj (eo_expr a) ls)))). split; [exists a; split; [done|]; left; by exists ls|].
        exists ls. unfold system. cbn [set_eqn w_eqns]. by rewrite list_lookup_insert.
      + exists (Throw x). split; [|done]. exists a. split; [done|]. right; left. by exists x.
      + exists Exit. split; [|done]. exists a. split; [done|]. right; right; left. done.
      + exists UB. split; [|done]. exists a. split; [done|]. right; right; right. done. }
  rewrite (Hgen j a r Ha), (Hgen k b r Hb). by apply (assemble_content cx dt _ _ _ _ v).
Qed.
Print Assumptions C120_copy.

(** solve() of an equation object never returns: whatever the linear solver does,
    even if it solves the system, the program terminates (or an exception leaves
    solve). *)
Theorem C120_solve_never_returns : forall {V} `{ValueType V} X (linear : list (list V) -> outcome X -> Prop) (o : eqnObj V) r,
  eqn_solve linear o r -> (forall u, r <> Ok u) /\ ((forall ls r', linear ls r' -> exists x, r' = Ok x) -> r = Exit).
Proof.
  intros V ? X linear o r. unfold eqn_solve. destruct (ex_temporal (eo_expr o)), (ex_spatial (eo_expr o)); try (intros ->; done).
  intros [(x & _ & ->)|[(x & Hx & ->)|[[Hx ->]|[Hx ->]]]]; try done; (split; [done|]); intros Hl; destruct (Hl _ _ Hx); done.
Qed.
Print Assumptions C120_solve_never_returns.

(** ** A program: ddt(phi) + div(flux, phi) - laplacian(gamma, phi), implicit, as
    an equation object; then the convection operator is doubled and the object is
    assembled. *)
Definition ddt0 : temporalOp := TemporalOp 0 Implicit coeff_default.
Definition div0 : spatialOp Qc := SpatialOp (DivOperator 0 0 None) Implicit coeff_default.
Definition lap0 : spatialOp Qc := SpatialOp (LaplacianOperator 1 0 false) Implicit coeff_default.
Definition textO : equation := EMinusOp (EOpPlus (TermT (TVar 0)) (TermS (SVar 0))) (SVar 1).
Definition selO (k : spatialKind Qc) : spatialKind Qc :=
  match k with DivOperator f p _ => DivOperator f p (Some Upwind) | LaplacianOperator g p _ => LaplacianOperator g p true | _ => k end.
Definition worldO : world Qc := World (Heap [div0; lap0] [ddt0]) [OpT 0; OpS 0; OpS 1] [] [].
Lemma historyO : history [NewTemporal ddt0; NewSpatial div0; NewSpatial lap0] empty_world worldO.
Proof. repeat (econstructor; [reflexivity|]). constructor. Qed.
Lemma contextO : equation_wf (w_heap worldO) (nCells (cx_mesh cxD)) textO /\ selects cxD (schemesD "none") selO (w_heap worldO) textO /\
  good_context cxD selO (w_heap worldO) textO cxD.
Proof.
  split; [|split].
  - cbn. repeat split; eexists; split; try reflexivity; exact I.
  - intros p o Hp Eo. cbn in Hp. apply elem_of_cons in Hp as [->|Hp]; [|apply elem_of_list_singleton in Hp as ->]; cbn in Eo; injection Eo as <-; vm_compute; reflexivity.
  - split; [apply cxD_setup|]. split; [done|]. split; [done|]. split.
    + intros p o Hp Eo. cbn in Hp. apply elem_of_cons in Hp as [->|Hp]; [|apply elem_of_list_singleton in Hp as ->]; cbn in Eo; injection Eo as <-;
        (split; [|exact I]); repeat split; done.
    + intros p o Hp Eo. cbn in Hp. apply elem_of_list_singleton in Hp as ->. cbn in Eo. injection Eo as <-. done.
Qed.
Definition newO := bind (eval_equation textO) (eqn_construct cxD (schemesD "none")) (w_heap worldO).
Definition w2O : world Qc := match newO with Ok (o, h) => push_eqn worldO (Some o) h | _ => worldO end.
Definition w3O : world Qc := match mulScalarS 0 (Q2Qc 2) (w_heap w2O) with Ok (_, h) => on_heap w2O h | _ => worldO end.
Example C120_instance : exists w4 values rhs,
  history [NewTemporal ddt0; NewSpatial div0; NewSpatial lap0] empty_world worldO /\
  wstep (NewEqn cxD (schemesD "none") textO) worldO (Ok w2O) /\
  history [ScaleOp (OpS 0) (Q2Qc 2)] w2O w3O /\
  h_spatial (w_heap w3O) !! 0 <> h_spatial (w_heap worldO) !! 0 /\
  surely (wstep (Assemble 0 cxD 1%Qc) w3O) w4 /\ system w4 0 = Some [values; rhs] /\
  residual patA values rhs x0D 1 = text_value cxD 1%Qc selO (w_heap worldO) textO x0D 1.
Proof.
  assert (Hn : names_only textO (reachable worldO)).
  { split; intros p Hp; cbn in Hp; cbn.
    - apply elem_of_cons in Hp as [->|Hp]; [right; left|]. apply elem_of_list_singleton in Hp as ->. right; right; left.
    - apply elem_of_list_singleton in Hp as ->. left. }
  assert (H2 : wstep (NewEqn cxD (schemesD "none") textO) worldO (Ok w2O)).
  { cbn [wstep]. split; [exact Hn|]. fold newO. unfold w2O. destruct newO as [[o h]| | |] eqn:E; [reflexivity|exfalso; vm_compute in E; discriminate..]. }
  assert (H3 : history [ScaleOp (OpS 0) (Q2Qc 2)] w2O w3O).
  { apply (history_cons _ _ _ w3O); [|constructor]. cbn [wstep]. split.
    - assert (E : reachable w2O = reachable worldO).
      { unfold w2O. destruct newO as [[o h]| | |]; done. }
      rewrite E. cbn. right. left.
    - unfold step_with, w3O. destruct (mulScalarS 0 (Q2Qc 2) (w_heap w2O)) as [[u h]| | |] eqn:E; [done|exfalso; vm_compute in E; discriminate..]. }
  destruct contextO as (C1 & C2 & C3).
  destruct (C120_snapshot cxD (schemesD "none") selO textO _ [ScaleOp (OpS 0) (Q2Qc 2)] worldO w2O w3O 0 historyO H2 eq_refl H3) with (cx := cxD) (dt := 1%Qc)
    as (w4 & values & rhs & A1 & A2 & _ & A3).
  { intros Hc. apply elem_of_list_singleton in Hc. discriminate. } { exact C1. } { exact C2. }
  { intros cx dt Hc. apply elem_of_list_singleton in Hc. discriminate. } { exact C3. }
  exists w4, values, rhs. split; [exact historyO|]. split; [done|]. split; [done|]. split.
  { intros E. apply (f_equal (fun o => match o with Some o => this (coeff_ (so_coeff o)) | None => 0%Q end)) in E. vm_compute in E. discriminate. }
  split; [done|]. split; [done|]. apply A3. cbn. lia.
Qed.
(** That value is 18 at cell 1; with the doubled operator it would be 23. *)
Example C120_instance_value : text_value cxD 1%Qc selO (w_heap worldO) textO x0D 1 = Q2Qc 18 /\
  text_value cxD 1%Qc selO (w_heap w3O) textO x0D 1 = Q2Qc 23.
Proof. split; apply Qc_is_canon; vm_compute; reflexivity. Qed.
