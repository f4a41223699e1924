(** C47, C48, C49: time integration. *)
From Verif Require Import Base Dict Registry Par Exec Reduce ReduceProofs Fields FieldsProofs Value Kernel Mesh MeshSpec Coeff FV FVSpec Sparsity SparsitySpec SparsityDet Assembly AssemblySpec AssemblyProps
  Boundary Properties_Boundary ExampleMesh Properties_Sparsity Properties_Assembly Dsl DslSpec DslHeapProofs DslProofs DslAssembly Properties_Dsl Properties_DslAssembly
  TimeInt TimeSpec TimeIntProofs TimeIntSteps.

(** * C47: forward Euler *)

(** One step. *)
Theorem C47_step : forall dbg cx n bcs h eqn dt st,
  setup_ok cx bcs -> state_ok cx st ->
  equation_wf h (nCells (cx_mesh cx)) eqn -> single_fields h eqn -> explicit_supported cx n (fun k => k) h eqn st ->
  exists e h' st', eval_equation eqn h = Ok (e, h') /\
    surely (forwardEuler_solve dbg cx n bcs h' e dt st) st' /\ state_ok cx st' /\
    euler_with cx bcs (explicit_part cx n (fun k => k) h eqn st) dt st st'.
Proof.
  intros dbg cx n bcs h eqn dt st Hset Hst Hwf Hsf Hsup.
  destruct (eval_equation_spec (nCells (cx_mesh cx)) h eqn h (ext_refl h) Hwf) as [[_ Hok]|[Hn _]]; [|done].
  destruct Hok as (e & h1 & E & Hx & [ts ss] & HE & HM).
  assert (Hid : map (selected (fun k => k)) ss = ss) by (etransitivity; [|apply map_id]; apply map_ext; by intros []).
  destruct (forwardEuler_step dbg cx n bcs Hset h1 e dt st (explicit_part cx n (fun k => k) h eqn st) Hst) as (st' & A & B & C).
  { apply (equation_adds cx n (fun k => k) h eqn st h1 e ts ss (proj1 Hset) Hsup); [by rewrite Hid|done]. }
  exists e, h1, st'. done.
Qed.
Print Assumptions C47_step.

(** Any number of steps of one integrator, step sizes [dts]. *)
Fixpoint euler_steps dbg cx n bcs (h : heap Qc) (e : expression) (dts : list Qc) (st : tstate) (r : outcome tstate) : Prop :=
  match dts with
  | [] => r = Ok st
  | dt :: dts' => rseq (forwardEuler_solve dbg cx n bcs h e dt st) (fun st' => euler_steps dbg cx n bcs h e dts' st') r
  end.
Theorem C47_steps : forall dbg cx n bcs h eqn st,
  setup_ok cx bcs -> state_ok cx st ->
  equation_wf h (nCells (cx_mesh cx)) eqn -> single_fields h eqn -> explicit_supported cx n (fun k => k) h eqn st ->
  exists e h', eval_equation eqn h = Ok (e, h') /\ forall dts, exists f : nat -> tstate,
    f 0 = st /\ surely (euler_steps dbg cx n bcs h' e dts st) (f (length dts)) /\
    forall i dt, dts !! i = Some dt -> euler_with cx bcs (explicit_part cx n (fun k => k) h eqn (f i)) dt (f i) (f (S i)).
Proof.
  intros dbg cx n bcs h eqn st Hset Hst Hwf Hsf Hsup.
  destruct (eval_equation_spec (nCells (cx_mesh cx)) h eqn h (ext_refl h) Hwf) as [[_ Hok]|[Hn _]]; [|done].
  destruct Hok as (e & h1 & E & Hx & [ts ss] & HE & HM). exists e, h1. split; [done|].
  assert (Hid : map (selected (fun k => k)) ss = ss) by (etransitivity; [|apply map_id]; apply map_ext; by intros []).
  intros dts. revert st Hst Hsup. induction dts as [|dt dts IH]; intros st Hst Hsup.
  - exists (fun _ => st). split; [done|]. split; [apply surely_ret|]. intros i dt Hi. done.
  - destruct (forwardEuler_step dbg cx n bcs Hset h1 e dt st (explicit_part cx n (fun k => k) h eqn st) Hst) as (st' & A & B & C).
    { apply (equation_adds cx n (fun k => k) h eqn st h1 e ts ss (proj1 Hset) Hsup); [by rewrite Hid|done]. }
    destruct (IH st' B) as (f & F0 & Fs & Fi); [by apply (supported_state cx n _ h eqn st); [apply B|]|].
    exists (fun i => match i with 0 => st | S i => f i end). split; [done|]. split.
    + simpl. eapply surely_rseq; [exact A|exact Fs].
    + intros [|i] dt' Hi; simpl in *.
      * injection Hi as <-. by rewrite F0.
      * by apply Fi.
Qed.
Print Assumptions C47_steps.

(** ** A time loop: dsl::solve called at times and step sizes [l]. *)
Fixpoint time_loop dbg cx n bcs lin (fvSchemes fvSolution : dict) (e : expression) (l : list (Qc * Qc)) (h : heap Qc) (st : tstate)
  (r : outcome (heap Qc * tstate)) : Prop :=
  match l with
  | [] => r = Ok (h, st)
  | (t, dt) :: l' =>
      rseq (dsl_solve dbg cx n bcs lin fvSchemes fvSolution h e t dt st)
        (fun '(h', st') r' => time_loop dbg cx n bcs lin fvSchemes fvSolution e l' h' st' r') r
  end.
Lemma loop_lemma dbg cx n bcs lin fvSchemes fvSolution e (Inv : heap Qc -> tstate -> Prop) (R : Qc -> tstate -> tstate -> Prop) l : forall h st,
  (forall h st t dt, Inv h st -> (t, dt) ∈ l -> exists h' st', surely (dsl_solve dbg cx n bcs lin fvSchemes fvSolution h e t dt st) (h', st') /\ Inv h' st' /\ R dt st st') ->
  Inv h st -> exists f h', f 0 = st /\ surely (time_loop dbg cx n bcs lin fvSchemes fvSolution e l h st) (h', f (length l)) /\
    forall i t dt, l !! i = Some (t, dt) -> R dt (f i) (f (S i)).
Proof.
  induction l as [|[t dt] l IH]; intros h st Hstep Hinv.
  - exists (fun _ => st), h. split; [done|]. split; [apply surely_ret|]. intros i t dt Hi. done.
  - destruct (Hstep h st t dt Hinv) as (h1 & st1 & A & B & C); [left|].
    destruct (IH h1 st1) as (f & h' & F0 & Fs & Fi); [intros; apply Hstep; [done|by right]|done|].
    exists (fun i => match i with 0 => st | S i => f i end), h'. split; [done|]. split.
    + simpl. eapply surely_rseq; [exact A|]. exact Fs.
    + intros [|i] t' dt' Hi; simpl in *.
      * injection Hi as <- <-. by rewrite F0.
      * by apply (Fi i t').
Qed.

Theorem C47_time_loop : forall dbg cx n bcs lin fvSchemes fvSolution schemes sel h eqn st,
  setup_ok cx bcs -> state_ok cx st ->
  equation_wf h (nCells (cx_mesh cx)) eqn -> single_fields h eqn -> temporal_objects eqn <> [] ->
  schemes_selected cx fvSchemes sel h eqn -> explicit_supported cx n sel h eqn st ->
  dict_subDict fvSchemes "ddtSchemes" = Ok schemes -> get_string schemes "type" = Ok "forwardEuler"%string ->
  exists e h', eval_equation eqn h = Ok (e, h') /\ forall l, exists f h'',
    f 0 = st /\ surely (time_loop dbg cx n bcs lin fvSchemes fvSolution e l h' st) (h'', f (length l)) /\
    forall i t dt, l !! i = Some (t, dt) -> euler_with cx bcs (explicit_part cx n sel h eqn (f i)) dt (f i) (f (S i)).
Proof.
  intros dbg cx n bcs lin fvSchemes fvSolution schemes sel h eqn st Hset Hst Hwf Hsf Htne Hsel Hsup Hsub Hty.
  destruct (eval_equation_spec (nCells (cx_mesh cx)) h eqn h (ext_refl h) Hwf) as [[_ Hok]|[Hn _]]; [|done].
  destruct Hok as (e & h1 & E & Hx & [ts ss] & [HET HES] & HM). exists e, h1. split; [done|]. simpl in HET, HES.
  pose proof HM as [[HdT HdS] _]. simpl in HdT, HdS.
  assert (Hbuild : forall o, o ∈ ss -> op_build cx fvSchemes o = Ok (selected sel o)).
  { intros o Ho. destruct (derivedS_leaves _ _ _ _ HdS o Ho) as (p & o0 & Hp & E0 & Ek & _).
    apply (op_build_kind cx fvSchemes sel o o0 Ek). by apply (Hsel p). }
  assert (Hte : ex_temporal e <> []).
  { intros Ee. rewrite Ee in HET. apply Forall2_nil_inv_l in HET as ->. by apply Forall2_nil_inv_r in HdT. }
  intros l.
  apply (loop_lemma dbg cx n bcs lin fvSchemes fvSolution e
    (fun h2 st2 => Forall2 (isT h2) (ex_temporal e) ts /\ state_ok cx st2 /\
       (Forall2 (isS h2) (ex_spatial e) ss \/ Forall2 (isS h2) (ex_spatial e) (map (selected sel) ss)))
    (fun dt st1 st2 => euler_with cx bcs (explicit_part cx n sel h eqn st1) dt st1 st2)); [|split; [done|]; split; [done|by left]].
  intros h2 st2 t dt (HT2 & Hst2 & HS2) _.
  assert (exists h3, expr_build (at_state cx n st2) fvSchemes e h2 = Ok (tt, h3) /\ Forall2 (isT h3) (ex_temporal e) ts /\
    Forall2 (isS h3) (ex_spatial e) (map (selected sel) ss)) as (h3 & Eb & HT3 & HS3).
  { assert (forall os, Forall2 (isS h2) (ex_spatial e) os -> Forall2 (fun o o' => op_build cx fvSchemes o = Ok o') os (map (selected sel) ss) ->
      exists h3, expr_build (at_state cx n st2) fvSchemes e h2 = Ok (tt, h3) /\ Forall2 (isT h3) (ex_temporal e) ts /\
        Forall2 (isS h3) (ex_spatial e) (map (selected sel) ss)) as Hgo.
    { intros os H1 H2. destruct (buildS_spec (at_state cx n st2) fvSchemes _ h2 os _ H1 H2) as (h3 & E3 & Et & F3 & _).
      exists h3. split; [exact E3|]. split; [|done].
      eapply Forall2_impl; [exact HT2|]. intros p o. unfold isT. by rewrite Et. }
    destruct HS2 as [HS2|HS2]; (eapply Hgo; [exact HS2|]).
    - apply Forall2_fmap_r, Forall_Forall2_diag, Forall_forall. intros o Ho. by apply Hbuild.
    - apply Forall2_fmap_r, Forall2_fmap_l, Forall_Forall2_diag, Forall_forall. intros o Ho. apply (op_build_idem cx fvSchemes o). by apply Hbuild. }
  destruct (forwardEuler_step dbg cx n bcs Hset h3 e dt st2 (explicit_part cx n sel h eqn st2) Hst2) as (st' & A & B & C).
  { apply (equation_adds cx n sel h eqn st2 h3 e ts ss (proj1 Hset)); [|by split|done].
    apply (supported_state cx n _ h eqn st); [apply Hst2|done]. }
  exists h3, st'. split; [|split; [split; [done|]; split; [done|by right]|done]].
  unfold dsl_solve. destruct (ex_temporal e) as [|tp tl] eqn:Ete; [done|].
  eapply surely_rseq; [intros r'; rewrite Eb; reflexivity|]. cbv beta iota.
  eapply surely_rseq; [intros r'; rewrite Hsub; reflexivity|].
  apply (surely_iff (rseq (forwardEuler_solve dbg cx n bcs h3 e dt st2) (fun st' r' => r' = Ok (h3, st')))).
  { intros r'. unfold timeIntegration_solve. rewrite Hty.
    assert (checked known_integrator (Ok "forwardEuler"%string) = Ok "forwardEuler"%string) as -> by reflexivity.
    rewrite decide_True by done. done. }
  eapply surely_rseq; [exact A|]. apply surely_ret.
Qed.
Print Assumptions C47_time_loop.

(** ** An example: ddt(phi) + div(flux, phi) on the mesh fork3, an executor with
    several threads, two patches, schemes selected from a dictionary. *)
Definition stT : tstate := TState (VolField [1; Q2Qc 5; Q2Qc 3]%Qc [0; 0]%Qc [0; 1]%Qc [1; 0]%Qc [0; 1]%Qc) None.
Definition bcsT : list (patch * volBC Qc) := [(Patch 0 0 1, FixedValue (Q2Qc 7)); (Patch 1 1 2, FixedGradient 0%Qc)].
Definition heapT (t : opType) : heap Qc :=
  Heap [SpatialOp (DivOperator 0 0 None) t coeff_default] [TemporalOp 0 Implicit coeff_default].
Definition eqnT : equation := EOpPlus (TermT (TVar 0)) (TermS (SVar 0)).
Definition schemesT (integrator : string) : dict :=
  [("ddtSchemes", ADict [("type", AString integrator); ("Runge-Kutta-Method", AString "Forward-Euler")]);
   ("divSchemes", ADict [("div(flux,phi)", ATokens [AString "Gauss"; AString "upwind"] 0)])]%string.
Definition selT (k : spatialKind Qc) : spatialKind Qc :=
  match k with DivOperator f p _ => DivOperator f p (Some Upwind) | LaplacianOperator g p _ => LaplacianOperator g p true | k => k end.
Lemma setupT : setup_ok cx3 bcsT.
Proof.
  split; [apply cx3_fits|]. split; [done|]. split.
  - constructor; [|constructor; [|constructor]]; vm_compute; lia.
  - intros [|[|i]] [|[|j]] a b Hi Hj Hij; try done; injection Hi as <-; injection Hj as <-; intros x [H1 H2] [H3 H4]; simpl in *; lia.
Qed.
Lemma stT_ok : state_ok cx3 stT.
Proof. repeat split. Qed.
Lemma wfT t : equation_wf (heapT t) 3 eqnT /\ single_fields (heapT t) eqnT /\ schemes_selected cx3 (schemesT "forwardEuler") selT (heapT t) eqnT.
Proof.
  split; [split; eexists; split; reflexivity || done|]. split; [cbn; lia|].
  intros p o Hp Eo. simpl in Hp. apply elem_of_list_singleton in Hp as ->. injection Eo as <-. vm_compute. reflexivity.
Qed.
Lemma supportedT t st : state_ok cx3 st -> explicit_supported cx3 0 selT (heapT t) eqnT st.
Proof.
  intros [(Hi & Hv & Hrv & Hvf & Hrg) _] p o Hp Eo _. simpl in Hp. apply elem_of_list_singleton in Hp as ->. injection Eo as <-.
  split; [|done]. cbn. split; [done|]. split; [done|]. split; [done|]. repeat split; done.
Qed.
(** Two steps of size 1/2: cell 1 loses to cell 0 half of what it holds, twice. *)
Example C47_instance : exists e h', eval_equation eqnT (heapT Explicit) = Ok (e, h') /\ exists f h'',
  surely (time_loop true cx3 0 bcsT (fun _ _ _ _ _ _ _ => False) (schemesT "forwardEuler") [] e [(0, Q2Qc (1 # 2)); (Q2Qc (1 # 2), Q2Qc (1 # 2))]%Qc h' stT) (h'', f 2) /\
  at0 (vf_int (ts_phi (f 2))) 1 = Q2Qc (5 # 4) /\ read (ts_phi (f 2)) (Value 1) = Some (inl (Q2Qc 3)).
Proof.
  destruct (wfT Explicit) as (W & S & Sel).
  destruct (C47_time_loop true cx3 0 bcsT (fun _ _ _ _ _ _ _ => False) (schemesT "forwardEuler") [] _ selT (heapT Explicit) eqnT stT setupT stT_ok W S ltac:(discriminate) Sel
    (supportedT Explicit stT stT_ok) eq_refl eq_refl) as (e & h' & E & HA).
  exists e, h'. split; [done|]. destruct (HA [(0, Q2Qc (1 # 2)); (Q2Qc (1 # 2), Q2Qc (1 # 2))]%Qc) as (f & h'' & F0 & Fs & Fi).
  exists f, h''. split; [done|].
  assert (Hdiv : forall st c, explicit_part cx3 0 selT (heapT Explicit) eqnT st c = explicit_kind (at_state cx3 0 st) (DivOperator 0 0 (Some Upwind)) c).
  { intros st c. unfold explicit_part. cbn [eqnT equation_value term_value tterm_value sterm_value]. unfold object_value. cbn [heapT h_spatial lookup list_lookup so_coeff so_type so_kind selT].
    simpl. rewrite Qcplus_0_l. rewrite !Qcmult_1_l. done. }
  pose proof (Fi 0 _ _ eq_refl) as [[L1 V1 O1] B1]. pose proof (Fi 1 _ _ eq_refl) as [[L2 V2 O2] B2]. rewrite F0 in *.
  assert (Hf1 : forall st, explicit_kind (at_state cx3 0 st) (DivOperator 0 0 (Some Upwind)) 1 = at0 (vf_int (ts_phi st)) 1).
  { intros st. change (at0 (vf_int (ts_phi st)) 1) with (face_value fork3 Upwind (ts_phi st) [-(1); 0; 0; 0]%Qc [1; 1; 1; 1]%Qc 0).
    unfold explicit_kind, div_spec, per_volume. cbn [at_state cx_mesh cx_surf cx_weights cx_vol cx3]. rewrite decide_True by done.
    generalize (face_value fork3 Upwind (ts_phi st) [-(1); 0; 0; 0]%Qc [1; 1; 1; 1]%Qc). intros fv.
    unfold cell_balance, vsum_over. simpl. unfold at0. simpl. unfold Qcdiv, coeff_val. simpl.
    field. discriminate. }
  assert (Hf2 : forall st, explicit_kind (at_state cx3 0 st) (DivOperator 0 0 (Some Upwind)) 2 = 0%Qc).
  { intros st. unfold explicit_kind, div_spec, per_volume. cbn [at_state cx_mesh cx_surf cx_weights cx_vol cx3]. rewrite decide_True by done.
    generalize (face_value fork3 Upwind (ts_phi st) [-(1); 0; 0; 0]%Qc [1; 1; 1; 1]%Qc). intros fv.
    unfold cell_balance, vsum_over. simpl. unfold at0. simpl. unfold Qcdiv, coeff_val. simpl. field. discriminate. }
  rewrite V2 by (simpl; lia). unfold old_of at 1. rewrite O1. simpl default. rewrite Hdiv, Hf1. rewrite V1 by (simpl; lia).
  rewrite Hdiv, Hf1. split; [apply Qc_is_canon; vm_compute; reflexivity|].
  rewrite (proj1 B2 (Patch 1 1 2) (FixedGradient 0%Qc) (Value 1) _ ltac:(right; left) eq_refl). do 2 f_equal.
  unfold at_face_cell. cbn. change (atV (vf_int (ts_phi (f 2))) 2) with (at0 (vf_int (ts_phi (f 2))) 2).
  rewrite V2 by (simpl; lia). unfold old_of at 1. rewrite O1. simpl default. rewrite Hdiv, Hf2, V1 by (simpl; lia). rewrite Hdiv, Hf2.
  apply Qc_is_canon; vm_compute; reflexivity.
Qed.

(** ** Implicit operators of the equation are silently left out (the integrator
    only evaluates the explicit ones, forwardEuler.hpp:43). *)
Definition heapU (k : Qc) (t : opType) : heap Qc :=
  Heap [SpatialOp (DivOperator 0 0 (Some Upwind)) t coeff_default] [TemporalOp 0 Implicit (coeff_scalar k)].
Lemma wfU k t : equation_wf (heapU k t) 3 eqnT /\ single_fields (heapU k t) eqnT /\
  explicit_supported cx3 0 (fun k => k) (heapU k t) eqnT stT /\ equation_supported (at_state cx3 0 stT) (heapU k t) eqnT.
Proof.
  split; [split; eexists; split; reflexivity || done|]. split; [cbn; lia|].
  assert (kind_fits (at_state cx3 0 stT) (DivOperator 0 0 (Some Upwind))) as Hk by (cbn; repeat split; done).
  split.
  - intros p o Hp Eo _. simpl in Hp. apply elem_of_list_singleton in Hp as ->. injection Eo as <-. split; [exact Hk|done].
  - split; intros p o Hp Eo; simpl in Hp; apply elem_of_list_singleton in Hp as ->; injection Eo as <-.
    + split; [exact Hk|]. by destruct t.
    + done.
Qed.
Theorem C85_implicit_operators_refuted : ~ forall dbg cx n bcs h eqn e h' dt st st',
  setup_ok cx bcs -> state_ok cx st -> equation_wf h (nCells (cx_mesh cx)) eqn -> single_fields h eqn ->
  equation_supported (at_state cx n st) h eqn -> eval_equation eqn h = Ok (e, h') ->
  forwardEuler_solve dbg cx n bcs h' e dt st (Ok st') ->
  forall c, c < nCells (cx_mesh cx) -> at0 (vf_int (ts_phi st')) c =
    (at0 (old_of st) c - dt * equation_value
       (object_value h (fun k => explicit_kind (at_state cx n st) k c)
          (fun k => implicit_kind (at_state cx n st) k (vf_int (ts_phi st)) c / at0 (cellVolumes (cx_mesh cx)) c) c) (fun _ => 0) c eqn)%Qc.
Proof.
  intros HH. destruct (wfU 1%Qc Implicit) as (W & S & X & Y).
  destruct (C47_step true cx3 0 bcsT (heapU 1%Qc Implicit) eqnT 1%Qc stT setupT stT_ok W S X) as (e & h' & st' & E & A & _ & [[_ V _] _]).
  specialize (HH true cx3 0 bcsT _ eqnT e h' 1%Qc stT st' setupT stT_ok W S Y E (proj2 (A _) eq_refl) 0 ltac:(simpl; lia)).
  rewrite V in HH by (simpl; lia). apply (f_equal this) in HH. vm_compute in HH. discriminate.
Qed.
Print Assumptions C85_implicit_operators_refuted.

(** The coefficient of the time derivative is ignored as well: for
    2 * ddt(phi) + div(flux, phi) the step is that of ddt(phi) + div(flux, phi). *)
Theorem C85_ddt_coefficient_refuted : ~ forall dbg cx n bcs h eqn e h' dt st st',
  setup_ok cx bcs -> state_ok cx st -> equation_wf h (nCells (cx_mesh cx)) eqn -> single_fields h eqn ->
  equation_supported (at_state cx n st) h eqn -> (forall p o, p ∈ spatial_objects eqn -> h_spatial h !! p = Some o -> so_type o = Explicit) ->
  eval_equation eqn h = Ok (e, h') -> dt <> 0%Qc ->
  forwardEuler_solve dbg cx n bcs h' e dt st (Ok st') ->
  forall c, c < nCells (cx_mesh cx) ->
    equation_value (object_value h (fun k => explicit_kind (at_state cx n st) k c) (fun _ => 0%Qc) c)
      (object_value_T h (fun _ => 0%Qc) (fun _ => (at0 (vf_int (ts_phi st')) c - at0 (old_of st) c) / dt)%Qc c) c eqn = 0%Qc.
Proof.
  intros HH. destruct (wfU (Q2Qc 2) Explicit) as (W & S & X & Y).
  destruct (C47_step true cx3 0 bcsT (heapU (Q2Qc 2) Explicit) eqnT 1%Qc stT setupT stT_ok W S X) as (e & h' & st' & E & A & _ & [[_ V _] _]).
  assert (Ex : forall p o, p ∈ spatial_objects eqnT -> h_spatial (heapU (Q2Qc 2) Explicit) !! p = Some o -> so_type o = Explicit).
  { intros p o Hp Eo. simpl in Hp. apply elem_of_list_singleton in Hp as ->. by injection Eo as <-. }
  specialize (HH true cx3 0 bcsT _ eqnT e h' 1%Qc stT st' setupT stT_ok W S Y Ex E ltac:(discriminate) (proj2 (A _) eq_refl) 0 ltac:(simpl; lia)).
  rewrite V in HH by (simpl; lia). apply (f_equal this) in HH. vm_compute in HH. discriminate.
Qed.
Print Assumptions C85_ddt_coefficient_refuted.

(** * C48: backward Euler *)

(** The system handed to the linear solver is the equation, explicit operators
    excepted: *)
Theorem C48_system : forall cx n bcs lin d name h eqn dt st,
  setup_ok cx bcs -> state_ok cx st ->
  equation_wf h (nCells (cx_mesh cx)) eqn -> single_fields h eqn -> all_supported cx n (fun k => k) h eqn st ->
  surely (sp_create (cx_exec cx) (cx_mesh cx)) (cx_pattern cx) -> solver_create d = Ok name ->
  exists e h' values rhs, eval_equation eqn h = Ok (e, h') /\ sys_ok (cx_mesh cx) (cx_pattern cx) values rhs /\
    (forall r, backwardEuler_solve cx n lin d h' e dt st r <->
       rseq (lin name d (cx_pattern cx) values rhs (vf_int (ts_phi st)))
         (fun x r' => r' = Ok (TState (with_int (ts_phi st) x) (Some x))) r) /\
    forall x c, c < nCells (cx_mesh cx) -> residual (cx_pattern cx) values rhs x c = implicit_at cx n (fun k => k) h eqn dt st x c.
Proof.
  intros cx n bcs lin d name h eqn dt st Hset Hst Hwf Hsf Hsup Hpat Hsol.
  destruct (eval_equation_spec (nCells (cx_mesh cx)) h eqn h (ext_refl h) Hwf) as [[_ Hok]|[Hn _]]; [|done].
  destruct Hok as (e & h1 & E & Hx & [ts ss] & HE & HM).
  assert (Hid : map (selected (fun k => k)) ss = ss) by (etransitivity; [|apply map_id]; apply map_ext; by intros []).
  destruct (backwardEuler_system cx n bcs Hset lin d name (fun k => k) h eqn st h1 e ts ss dt Hst Hsup) as (v & b & A & B & C); [by rewrite Hid|done..|].
  exists e, h1, v, b. done.
Qed.
Print Assumptions C48_system.

(** What a solved step should do: the new field satisfies the equation and
    becomes the old-time field; boundary data is kept. *)
Definition solves_step cx n sel h eqn dt (st st' : tstate) : Prop :=
  length (vf_int (ts_phi st')) = nCells (cx_mesh cx) /\
  (forall c, c < nCells (cx_mesh cx) -> equation_at cx n sel h eqn dt st (vf_int (ts_phi st')) c = 0%Qc) /\
  ts_old st' = Some (vf_int (ts_phi st')) /\
  ts_phi st' = with_int (ts_phi st) (vf_int (ts_phi st')).

(** Equations whose operators are all implicit: with an exact linear solver every
    step that ends satisfies the equation. *)
Theorem C48_step : forall cx n bcs lin d name h eqn dt st,
  setup_ok cx bcs -> state_ok cx st ->
  equation_wf h (nCells (cx_mesh cx)) eqn -> single_fields h eqn -> all_supported cx n (fun k => k) h eqn st ->
  (forall p o, p ∈ spatial_objects eqn -> h_spatial h !! p = Some o -> so_type o = Implicit) ->
  surely (sp_create (cx_exec cx) (cx_mesh cx)) (cx_pattern cx) -> solver_create d = Ok name -> exact_solver lin ->
  exists e h', eval_equation eqn h = Ok (e, h') /\
    forall r, backwardEuler_solve cx n lin d h' e dt st r ->
      exists st', r = Ok st' /\ solves_step cx n (fun k => k) h eqn dt st st'.
Proof.
  intros cx n bcs lin d name h eqn dt st Hset Hst Hwf Hsf Hsup Himp Hpat Hsol Hlin.
  destruct (C48_system cx n bcs lin d name h eqn dt st Hset Hst Hwf Hsf Hsup Hpat Hsol) as (e & h' & v & b & E & [Hv Hb] & Hr & Hres).
  exists e, h'. split; [done|]. intros r Hrun. apply Hr in Hrun.
  assert (Hx : forall r0, lin name d (cx_pattern cx) v b (vf_int (ts_phi st)) r0 -> exists x, r0 = Ok x /\ length x = length b /\ forall c, c < length b -> residual (cx_pattern cx) v b x c = 0%Qc) by (intros r0; apply Hlin).
  destruct Hrun as [(x & H1 & ->)|[(x & H1 & _)|[[H1 _]|[H1 _]]]]; destruct (Hx _ H1) as (y & Ey & Hl & Hy); try discriminate.
  injection Ey as <-. eexists. split; [reflexivity|]. cbn. rewrite Hb in *. split; [done|]. split; [|done].
  intros c Hc. rewrite <- implicit_at_all by done. rewrite <- Hres by done. by apply Hy.
Qed.
Print Assumptions C48_step.

(** ** The serial executor always builds the same pattern, so there the pattern
    hypothesis holds once the cached pattern has been built. *)
Theorem C48_serial_pattern : forall m p,
  valid_topology m -> rows_fit m -> sp_create SerialExecutor m (Ok p) -> surely (sp_create SerialExecutor m) p.
Proof.
  intros m p Hm Hf Hp r. split.
  - intros Hr. exact (sp_create_serial_det m r (Ok p) Hr Hp).
  - intros ->. done.
Qed.
Print Assumptions C48_serial_pattern.

(** ** A time loop with backward Euler. *)
Lemma loop_every dbg cx n bcs lin fvSchemes fvSolution e (Inv : heap Qc -> tstate -> Prop) (R : Qc -> tstate -> tstate -> Prop) l : forall h st,
  (forall h st t dt r, Inv h st -> dsl_solve dbg cx n bcs lin fvSchemes fvSolution h e t dt st r -> exists h' st', r = Ok (h', st') /\ Inv h' st' /\ R dt st st') ->
  Inv h st -> forall r, time_loop dbg cx n bcs lin fvSchemes fvSolution e l h st r ->
  exists f h', f 0 = st /\ r = Ok (h', f (length l)) /\
    forall i t dt, l !! i = Some (t, dt) -> R dt (f i) (f (S i)).
Proof.
  induction l as [|[t dt] l IH]; intros h st Hstep Hinv r Hr.
  - exists (fun _ => st), h. split; [done|]. split; [done|]. intros i t dt Hi. done.
  - simpl in Hr.
    assert (exists h1 st1, Inv h1 st1 /\ R dt st st1 /\ time_loop dbg cx n bcs lin fvSchemes fvSolution e l h1 st1 r) as (h1 & st1 & B & C & D).
    { destruct Hr as [([h1 st1] & H1 & H2)|[(x & H1 & _)|[[H1 _]|[H1 _]]]]; destruct (Hstep _ _ _ _ _ Hinv H1) as (h' & st' & E & B & C); try discriminate.
      injection E as -> ->. exists h', st'. done. }
    destruct (IH h1 st1 Hstep B r D) as (f & h' & F0 & Fs & Fi).
    exists (fun i => match i with 0 => st | S i => f i end), h'. split; [done|]. split; [done|].
    intros [|i] t' dt' Hi; simpl in *.
    + injection Hi as <- <-. by rewrite F0.
    + by apply (Fi i t').
Qed.

(** The operators of an evaluated equation, before or after build(). *)
Lemma build_again cx n fvSchemes sel e ss ts h2 st2 :
  (forall o, o ∈ ss -> op_build cx fvSchemes o = Ok (selected sel o)) ->
  Forall2 (isT h2) (ex_temporal e) ts ->
  (Forall2 (isS h2) (ex_spatial e) ss \/ Forall2 (isS h2) (ex_spatial e) (map (selected sel) ss)) ->
  exists h3, expr_build (at_state cx n st2) fvSchemes e h2 = Ok (tt, h3) /\ Forall2 (isT h3) (ex_temporal e) ts /\
    Forall2 (isS h3) (ex_spatial e) (map (selected sel) ss).
Proof.
  intros Hbuild HT2 HS2.
  assert (forall os, Forall2 (isS h2) (ex_spatial e) os -> Forall2 (fun o o' => op_build cx fvSchemes o = Ok o') os (map (selected sel) ss) ->
      exists h3, expr_build (at_state cx n st2) fvSchemes e h2 = Ok (tt, h3) /\ Forall2 (isT h3) (ex_temporal e) ts /\
        Forall2 (isS h3) (ex_spatial e) (map (selected sel) ss)) as Hgo.
  { intros os H1 H2. destruct (buildS_spec (at_state cx n st2) fvSchemes _ h2 os _ H1 H2) as (h3 & E3 & Et & F3 & _).
    exists h3. split; [exact E3|]. split; [|done]. eapply Forall2_impl; [exact HT2|]. intros p o. unfold isT. by rewrite Et. }
  destruct HS2 as [HS2|HS2]; (eapply Hgo; [exact HS2|]).
  - apply Forall2_fmap_r, Forall_Forall2_diag, Forall_forall. intros o Ho. by apply Hbuild.
  - apply Forall2_fmap_r, Forall2_fmap_l, Forall_Forall2_diag, Forall_forall. intros o Ho. apply (op_build_idem cx fvSchemes o). by apply Hbuild.
Qed.

Theorem C48_time_loop : forall dbg cx n bcs lin fvSchemes fvSolution schemes name sel h eqn st,
  setup_ok cx bcs -> state_ok cx st ->
  equation_wf h (nCells (cx_mesh cx)) eqn -> single_fields h eqn -> temporal_objects eqn <> [] ->
  schemes_selected cx fvSchemes sel h eqn -> all_supported cx n sel h eqn st ->
  (forall p o, p ∈ spatial_objects eqn -> h_spatial h !! p = Some o -> so_type o = Implicit) ->
  surely (sp_create (cx_exec cx) (cx_mesh cx)) (cx_pattern cx) -> exact_solver lin ->
  dict_subDict fvSchemes "ddtSchemes" = Ok schemes -> get_string schemes "type" = Ok "backwardEuler"%string ->
  solver_create fvSchemes = Ok name ->
  exists e h', eval_equation eqn h = Ok (e, h') /\
    forall l r, time_loop dbg cx n bcs lin fvSchemes fvSolution e l h' st r -> exists f h'',
      f 0 = st /\ r = Ok (h'', f (length l)) /\
      forall i t dt, l !! i = Some (t, dt) -> solves_step cx n sel h eqn dt (f i) (f (S i)).
Proof.
  intros dbg cx n bcs lin fvSchemes fvSolution schemes name sel h eqn st Hset Hst Hwf Hsf Htne Hsel Hsup Himp Hpat Hlin Hsub Hty Hsol.
  destruct (eval_equation_spec (nCells (cx_mesh cx)) h eqn h (ext_refl h) Hwf) as [[_ Hok]|[Hn _]]; [|done].
  destruct Hok as (e & h1 & E & Hx & [ts ss] & [HET HES] & HM). exists e, h1. split; [done|]. simpl in HET, HES.
  pose proof HM as [[HdT HdS] _]. simpl in HdT, HdS.
  assert (Hbuild : forall o, o ∈ ss -> op_build cx fvSchemes o = Ok (selected sel o)).
  { intros o Ho. destruct (derivedS_leaves _ _ _ _ HdS o Ho) as (p & o0 & Hp & E0 & Ek & _).
    apply (op_build_kind cx fvSchemes sel o o0 Ek). by apply (Hsel p). }
  assert (Hte : ex_temporal e <> []).
  { intros Ee. rewrite Ee in HET. apply Forall2_nil_inv_l in HET as ->. by apply Forall2_nil_inv_r in HdT. }
  intros l.
  apply (loop_every dbg cx n bcs lin fvSchemes fvSolution e
    (fun h2 st2 => Forall2 (isT h2) (ex_temporal e) ts /\ state_ok cx st2 /\
       (Forall2 (isS h2) (ex_spatial e) ss \/ Forall2 (isS h2) (ex_spatial e) (map (selected sel) ss)))
    (fun dt st1 st2 => solves_step cx n sel h eqn dt st1 st2)); [|split; [done|]; split; [done|by left]].
  intros h2 st2 t dt r (HT2 & Hst2 & HS2) Hr.
  destruct (build_again cx n fvSchemes sel e ss ts h2 st2 Hbuild HT2 HS2) as (h3 & Eb & HT3 & HS3).
  destruct (backwardEuler_system cx n bcs Hset lin fvSchemes name sel h eqn st2 h3 e ts ss dt Hst2) as (v & b & [Hv Hb] & Hrun & Hres);
    [by apply (all_state cx n sel h eqn st)|by split|done..|].
  assert (Hr2 : rseq (backwardEuler_solve cx n lin fvSchemes h3 e dt st2) (fun st' r' => r' = Ok (h3, st')) r).
  { unfold dsl_solve in Hr. destruct (ex_temporal e) as [|tp tl] eqn:Ete; [done|].
    rewrite (rseq_surely _ _ (tt, h3)) in Hr by (intros r'; rewrite Eb; reflexivity). cbv beta iota in Hr.
    rewrite (rseq_surely _ _ schemes) in Hr by (intros r'; rewrite Hsub; reflexivity).
    unfold timeIntegration_solve in Hr. rewrite Hty in Hr.
    assert (checked known_integrator (Ok "backwardEuler"%string) = Ok "backwardEuler"%string) as Ek by reflexivity. rewrite Ek in Hr.
    rewrite decide_False in Hr by discriminate. rewrite decide_True in Hr by done. exact Hr. }
  assert (Hback : forall r0, backwardEuler_solve cx n lin fvSchemes h3 e dt st2 r0 -> exists st', r0 = Ok st' /\ solves_step cx n sel h eqn dt st2 st').
  { intros r0 Hr0. apply Hrun in Hr0.
    assert (Hl : forall r1, lin name fvSchemes (cx_pattern cx) v b (vf_int (ts_phi st2)) r1 -> exists x, r1 = Ok x /\ length x = length b /\ forall c, c < length b -> residual (cx_pattern cx) v b x c = 0%Qc) by (intros r1; apply Hlin).
    destruct Hr0 as [(x & H1 & ->)|[(x & H1 & _)|[[H1 _]|[H1 _]]]]; destruct (Hl _ H1) as (y & Ey & Hly & Hy); try discriminate.
    injection Ey as <-. eexists. split; [reflexivity|]. cbn. rewrite Hb in *. split; [done|]. split; [|done].
    intros c Hc. rewrite <- implicit_at_all by done. rewrite <- Hres by done. by apply Hy. }
  destruct Hr2 as [(st' & H1 & ->)|[(x & H1 & _)|[[H1 _]|[H1 _]]]]; destruct (Hback _ H1) as (y & Ey & Hy); try discriminate.
  injection Ey as <-. exists h3, st'. split; [done|]. split; [|done]. split; [done|]. split; [|by right].
  destruct Hy as (L & _ & O & P). destruct Hst2 as [(_ & Q1 & Q2 & Q3 & Q4) _]. split.
  - rewrite P. repeat split; done.
  - unfold old_of. by rewrite O.
Qed.
Print Assumptions C48_time_loop.

(** ** Example: ddt(phi) + div(flux, phi), implicit, on the serial executor. *)
Definition solve_exactly (name : string) (d : dict) (p : sparsity) (values rhs x0 : list Qc) (r : outcome (list Qc)) : Prop :=
  exists x, r = Ok x /\ length x = length rhs /\ forall c, c < length rhs -> residual p values rhs x c = 0%Qc.
Lemma solve_exactly_exact : exact_solver solve_exactly.
Proof. intros name d p v b x0 r Hr. exact Hr. Qed.
Definition cxS : ctx Qc :=
  Ctx SerialExecutor fork3 [1; 1; 1; 1]%Qc [1; 1; 1; 1]%Qc patA (fun _ => [-(1); 0; 0; 0]%Qc) (fun _ => [0; 0; 0; 0]%Qc) (fun _ => phi3)
      (fun _ => [1; 1; 1]%Qc) (fun _ => [1; 1; 1]%Qc) (fun _ => "flux"%string) (fun _ => "phi"%string).
Lemma patA_serial : sp_create SerialExecutor fork3 (Ok patA).
Proof.
  unfold sp_create, sp_update, ubind. right. eexists. split; [vm_compute; reflexivity|].
  exists [[0;1;2]], [0]; split; [apply (serial_plan 3)|].
  cbn beta iota; match goal with |- context [segmentsFromIntervals ?a ?b ?c ?d] =>
    let x := eval vm_compute in (segmentsFromIntervals a b c d) in change (segmentsFromIntervals a b c d) with x end.
  cbn beta iota. do 4 (right; eexists; split; [vm_compute; reflexivity|]). vm_compute. reflexivity.
Qed.
Lemma cxS_setup : setup_ok cxS bcsT.
Proof.
  destruct setupT as ((H1 & H2 & H3 & H4 & H5 & H6 & _) & Hr). split; [|exact Hr].
  split; [exact H1|]. split; [exact H2|]. split; [exact H3|]. split; [done|]. split; [done|]. split; [done|]. by left.
Qed.
Lemma cxS_pattern : surely (sp_create (cx_exec cxS) (cx_mesh cxS)) (cx_pattern cxS).
Proof. apply C48_serial_pattern; [apply fork3_topology|apply fork3_fit|apply patA_serial]. Qed.
Lemma supportedS t st : state_ok cxS st -> all_supported cxS 0 (fun k => k) (heapU 1%Qc t) eqnT st.
Proof.
  intros [(Hi & Hv & Hrv & Hvf & Hrg) Ho]. split; intros p o Hp Eo; simpl in Hp; apply elem_of_list_singleton in Hp as ->; injection Eo as <-.
  - split; [|done]. cbn. split; [done|]. split; [done|]. split; [done|]. repeat split; done.
  - done.
Qed.
Lemma stS_ok : state_ok cxS stT.
Proof. repeat split. Qed.
Definition solvers : dict := [("solver", AString "Ginkgo")]%string.
Example C48_instance : exists e h', eval_equation eqnT (heapU 1%Qc Implicit) = Ok (e, h') /\ exists st',
  backwardEuler_solve cxS 0 solve_exactly solvers h' e 1%Qc stT (Ok st') /\ vf_int (ts_phi st') = [Q2Qc (7 # 2); Q2Qc (5 # 2); Q2Qc 3] /\
  solves_step cxS 0 (fun k => k) (heapU 1%Qc Implicit) eqnT 1%Qc stT st'.
Proof.
  destruct (wfU 1%Qc Implicit) as (W & S & _).
  destruct (C48_system cxS 0 bcsT solve_exactly solvers "Ginkgo" (heapU 1%Qc Implicit) eqnT 1%Qc stT cxS_setup stS_ok W S
    (supportedS Implicit stT stS_ok) cxS_pattern eq_refl) as (e & h' & v & b & E & [Hv Hb] & Hr & Hres).
  destruct (C48_step cxS 0 bcsT solve_exactly solvers "Ginkgo" (heapU 1%Qc Implicit) eqnT 1%Qc stT cxS_setup stS_ok W S
    (supportedS Implicit stT stS_ok)) as (e2 & h2 & E2 & Hstep); [| |done|apply solve_exactly_exact|].
  { intros p o Hp Eo. simpl in Hp. apply elem_of_list_singleton in Hp as ->. by injection Eo as <-. }
  { apply cxS_pattern. }
  rewrite E in E2. injection E2 as <- <-.
  set (x := [Q2Qc (7 # 2); Q2Qc (5 # 2); Q2Qc 3]).
  exists e, h'. split; [done|]. exists (TState (with_int (ts_phi stT) x) (Some x)).
  assert (Hrun : backwardEuler_solve cxS 0 solve_exactly solvers h' e 1%Qc stT (Ok (TState (with_int (ts_phi stT) x) (Some x)))).
  { apply Hr. left. exists x. split; [|done]. exists x. split; [done|]. rewrite Hb. split; [done|].
    intros c Hc. rewrite Hres by done. simpl in Hc. destruct c as [|[|[|c]]]; [| | |lia]; apply Qc_is_canon; vm_compute; reflexivity. }
  split; [done|]. split; [done|]. destruct (Hstep _ Hrun) as (st' & Es & Hs). injection Es as <-. exact Hs.
Qed.

(** ** Explicit operators are left out of the step (backwardEuler.hpp:51: the
    source is computed and not used). *)
Theorem C86_explicit_operators_refuted : ~ forall cx n bcs lin d name h eqn dt st e h' st',
  setup_ok cx bcs -> state_ok cx st ->
  equation_wf h (nCells (cx_mesh cx)) eqn -> single_fields h eqn -> all_supported cx n (fun k => k) h eqn st ->
  surely (sp_create (cx_exec cx) (cx_mesh cx)) (cx_pattern cx) -> solver_create d = Ok name -> exact_solver lin ->
  eval_equation eqn h = Ok (e, h') -> backwardEuler_solve cx n lin d h' e dt st (Ok st') ->
  solves_step cx n (fun k => k) h eqn dt st st'.
Proof.
  intros HH. destruct (wfU 1%Qc Explicit) as (W & S & _).
  destruct (C48_system cxS 0 bcsT solve_exactly solvers "Ginkgo" (heapU 1%Qc Explicit) eqnT 1%Qc stT cxS_setup stS_ok W S
    (supportedS Explicit stT stS_ok) cxS_pattern eq_refl) as (e & h' & v & b & E & [Hv Hb] & Hr & Hres).
  set (x := vf_int (ts_phi stT)).
  assert (Hrun : backwardEuler_solve cxS 0 solve_exactly solvers h' e 1%Qc stT (Ok (TState (with_int (ts_phi stT) x) (Some x)))).
  { apply Hr. left. exists x. split; [|done]. exists x. split; [done|]. rewrite Hb. split; [done|].
    intros c Hc. rewrite Hres by done. simpl in Hc. destruct c as [|[|[|c]]]; [| | |lia]; apply Qc_is_canon; vm_compute; reflexivity. }
  destruct (HH cxS 0 bcsT solve_exactly solvers "Ginkgo"%string (heapU 1%Qc Explicit) eqnT 1%Qc stT e h' _ cxS_setup stS_ok W S (supportedS Explicit stT stS_ok) cxS_pattern eq_refl solve_exactly_exact E Hrun) as (_ & Heq & _).
  specialize (Heq 1 ltac:(simpl; lia)). apply (f_equal this) in Heq. vm_compute in Heq. discriminate.
Qed.
Print Assumptions C86_explicit_operators_refuted.

(** ** The boundary conditions are not applied to the new field. *)
Theorem C86_boundary_refuted : ~ forall cx n bcs lin d name h eqn dt st e h' st',
  setup_ok cx bcs -> state_ok cx st ->
  equation_wf h (nCells (cx_mesh cx)) eqn -> single_fields h eqn -> all_supported cx n (fun k => k) h eqn st ->
  (forall p o, p ∈ spatial_objects eqn -> h_spatial h !! p = Some o -> so_type o = Implicit) ->
  surely (sp_create (cx_exec cx) (cx_mesh cx)) (cx_pattern cx) -> solver_create d = Ok name -> exact_solver lin ->
  eval_equation eqn h = Ok (e, h') -> backwardEuler_solve cx n lin d h' e dt st (Ok st') ->
  boundary_corrected cx bcs (ts_phi st) (ts_phi st').
Proof.
  intros HH. destruct C48_instance as (e & h' & E & st' & Hrun & Hx & Hs). destruct (wfU 1%Qc Implicit) as (W & S & _).
  destruct (HH cxS 0 bcsT solve_exactly solvers "Ginkgo"%string (heapU 1%Qc Implicit) eqnT 1%Qc stT e h' st' cxS_setup stS_ok W S (supportedS Implicit stT stS_ok)) as [Hc _];
    [|apply cxS_pattern|done|apply solve_exactly_exact|done|done|].
  { intros p o Hp Eo. simpl in Hp. apply elem_of_list_singleton in Hp as ->. by injection Eo as <-. }
  specialize (Hc (Patch 0 0 1) (FixedValue (Q2Qc 7)) (Value 0) _ ltac:(left) eq_refl).
  destruct Hs as (_ & _ & _ & Hp). rewrite Hp in Hc. cbn in Hc. injection Hc as Hc. discriminate.
Qed.
Print Assumptions C86_boundary_refuted.

(** ** Another executor than the serial one: the pattern built afresh by the step
    (backwardEuler.hpp:60) may order a row differently from the pattern the
    operators use (kept in the mesh database), and the step then solves a
    different system. *)
Theorem C84_backward_euler_fresh_pattern_refuted : ~ forall cx n bcs lin d name h eqn dt st e h' st',
  setup_ok cx bcs -> state_ok cx st ->
  equation_wf h (nCells (cx_mesh cx)) eqn -> single_fields h eqn -> all_supported cx n (fun k => k) h eqn st ->
  (forall p o, p ∈ spatial_objects eqn -> h_spatial h !! p = Some o -> so_type o = Implicit) ->
  sp_create (cx_exec cx) (cx_mesh cx) (Ok (cx_pattern cx)) -> solver_create d = Ok name -> exact_solver lin ->
  eval_equation eqn h = Ok (e, h') -> backwardEuler_solve cx n lin d h' e dt st (Ok st') ->
  solves_step cx n (fun k => k) h eqn dt st st'.
Proof.
  intros HH. destruct (wfU 1%Qc Implicit) as (W & S & _).
  assert (Hsup : all_supported cx3 0 (fun k => k) (heapU 1%Qc Implicit) eqnT stT).
  { split; intros p o Hp Eo; simpl in Hp; apply elem_of_list_singleton in Hp as ->; injection Eo as <-.
    - split; [|done]. cbn. split; [done|]. split; [done|]. split; [done|]. repeat split; done.
    - done. }
  destruct (eval_equation_spec 3 (heapU 1%Qc Implicit) eqnT _ (ext_refl _) W) as [[_ Hok]|[Hn _]]; [|done].
  destruct Hok as (e & h1 & E & Hx & [ts ss] & HE & HM).
  assert (Hid : map (selected (fun k => k)) ss = ss) by (etransitivity; [|apply map_id]; apply map_ext; by intros []).
  assert (HE' : isE h1 e (ts, map (selected (fun k => k)) ss)) by (by rewrite Hid).
  destruct (backward_assembled cx3 0 bcsT setupT (fun k => k) (heapU 1%Qc Implicit) eqnT stT h1 e ts ss 1%Qc Hsup HE' HM) as (v & b & [Hv Hb] & A1 & A3).
  pose proof (explicit_surely cx3 0 h1 e stT _ stT_ok
    (equation_adds cx3 0 (fun k => k) (heapU 1%Qc Implicit) eqnT stT h1 e ts ss (proj1 setupT) (all_explicit _ _ _ _ _ _ Hsup) HE' HM)) as R1.
  set (x := [Q2Qc 4; Q2Qc (5 # 2); Q2Qc 3]).
  assert (Hswap : forall c, c < 3 -> residual patB v b x c = 0%Qc).
  { intros c Hc. transitivity (residual patA v b (if decide (c = 0) then [Q2Qc 4; Q2Qc 3; Q2Qc (5 # 2)] else x) c).
    - do 3 (destruct b as [|? b]; [discriminate Hb|]). destruct b; [|discriminate Hb].
      do 7 (destruct v as [|? v]; [discriminate Hv|]). destruct v; [|discriminate Hv].
      destruct c as [|[|[|c]]]; [| | |lia]; reflexivity.
    - change patA with (cx_pattern cx3). rewrite A3 by done.
      destruct c as [|[|[|c]]]; [| | |lia]; apply Qc_is_canon; vm_compute; reflexivity. }
  assert (Hrun : backwardEuler_solve cx3 0 solve_exactly solvers h1 e 1%Qc stT (Ok (TState (with_int (ts_phi stT) x) (Some x)))).
  { unfold backwardEuler_solve. rewrite (rseq_surely _ _ _ _ R1). cbv zeta. left. exists patB. split; [apply patB_created|].
    change (sp_nnz patB) with (sp_nnz (cx_pattern cx3)). change (sp_rowPtrs patB) with (sp_rowPtrs (cx_pattern cx3)).
    change (length (sp_diagOffset patB)) with (nCells (cx_mesh cx3)).
    rewrite <- rseq_assoc. rewrite (rseq_surely _ _ _ _ A1). cbn [solver_solve].
    change (solver_solve solve_exactly solvers patB [v; b] (vf_int (ts_phi stT))) with (solve_exactly "Ginkgo" solvers patB v b (vf_int (ts_phi stT))).
    left. exists x. split.
    - exists x. split; [done|]. rewrite Hb. split; [done|]. exact Hswap.
    - by rewrite (rseq_surely _ _ _ _ (fop_assign _ _ _)). }
  assert (Himp : forall p o, p ∈ spatial_objects eqnT -> h_spatial (heapU 1%Qc Implicit) !! p = Some o -> so_type o = Implicit).
  { intros p o Hp Eo. simpl in Hp. apply elem_of_list_singleton in Hp as ->. by injection Eo as <-. }
  destruct (HH cx3 0 bcsT solve_exactly solvers "Ginkgo"%string (heapU 1%Qc Implicit) eqnT 1%Qc stT e h1 _ setupT stT_ok W S Hsup Himp patA_created eq_refl
    solve_exactly_exact E Hrun) as (_ & Heq & _).
  specialize (Heq 0 ltac:(simpl; lia)). apply (f_equal this) in Heq. vm_compute in Heq. discriminate.
Qed.
Print Assumptions C84_backward_euler_fresh_pattern_refuted.

(** ** The solver is looked up in the schemes dictionary, not in the solution
    dictionary (dsl/solver.hpp:56-61 passes fvSchemes twice): a case that names
    its solver in fvSolution fails. *)
Definition solver_total (lin : string -> dict -> sparsity -> list Qc -> list Qc -> list Qc -> outcome (list Qc) -> Prop) : Prop :=
  forall name d p v b x0 r, lin name d p v b x0 r -> exists x, r = Ok x.
Theorem C86_solver_dictionary_refuted : ~ forall dbg cx n bcs lin fvSchemes fvSolution schemes name sel h eqn st t dt e h' r,
  setup_ok cx bcs -> state_ok cx st ->
  equation_wf h (nCells (cx_mesh cx)) eqn -> single_fields h eqn -> temporal_objects eqn <> [] ->
  schemes_selected cx fvSchemes sel h eqn -> all_supported cx n sel h eqn st ->
  (forall p o, p ∈ spatial_objects eqn -> h_spatial h !! p = Some o -> so_type o = Implicit) ->
  surely (sp_create (cx_exec cx) (cx_mesh cx)) (cx_pattern cx) -> solver_total lin ->
  dict_subDict fvSchemes "ddtSchemes" = Ok schemes -> get_string schemes "type" = Ok "backwardEuler"%string ->
  solver_create fvSolution = Ok name -> eval_equation eqn h = Ok (e, h') ->
  dsl_solve dbg cx n bcs lin fvSchemes fvSolution h' e t dt st r -> exists h'' st', r = Ok (h'', st').
Proof.
  intros HH. destruct (wfT Implicit) as (W & S & _).
  assert (Sel : schemes_selected cxS (schemesT "backwardEuler") selT (heapT Implicit) eqnT).
  { intros p o Hp Eo. simpl in Hp. apply elem_of_list_singleton in Hp as ->. injection Eo as <-. vm_compute. reflexivity. }
  assert (Hsup : all_supported cxS 0 selT (heapT Implicit) eqnT stT).
  { split; intros p o Hp Eo; simpl in Hp; apply elem_of_list_singleton in Hp as ->; injection Eo as <-.
    - split; [|done]. cbn. split; [done|]. split; [done|]. split; [done|]. repeat split; done.
    - done. }
  assert (Himp : forall p o, p ∈ spatial_objects eqnT -> h_spatial (heapT Implicit) !! p = Some o -> so_type o = Implicit).
  { intros p o Hp Eo. simpl in Hp. apply elem_of_list_singleton in Hp as ->. by injection Eo as <-. }
  assert (Htot : solver_total solve_exactly) by (intros name d p v b x0 r (x & -> & _); by exists x).
  destruct (eval_equation_spec 3 (heapT Implicit) eqnT _ (ext_refl _) W) as [[_ Hok]|[Hn _]]; [|done].
  destruct Hok as (e & h1 & E & Hx & [ts ss] & [HET HES] & HM). pose proof HM as [[HdT HdS] _]. simpl in HET, HES, HdT, HdS.
  assert (Hbuild : forall o, o ∈ ss -> op_build cxS (schemesT "backwardEuler") o = Ok (selected selT o)).
  { intros o Ho. destruct (derivedS_leaves _ _ _ _ HdS o Ho) as (p & o0 & Hp & E0 & Ek & _).
    apply (op_build_kind cxS (schemesT "backwardEuler") selT o o0 Ek). by apply (Sel p). }
  destruct (build_again cxS 0 (schemesT "backwardEuler") selT e ss ts h1 stT Hbuild HET (or_introl HES)) as (h3 & Eb & HT3 & HS3).
  assert (HE3 : isE h3 e (ts, map (selected selT) ss)) by (by split).
  destruct (backward_assembled cxS 0 bcsT cxS_setup selT (heapT Implicit) eqnT stT h3 e ts ss 1%Qc Hsup HE3 HM) as (v & b & [Hv Hb] & A1 & A3).
  pose proof (explicit_surely cxS 0 h3 e stT _ stS_ok
    (equation_adds cxS 0 selT (heapT Implicit) eqnT stT h3 e ts ss (proj1 cxS_setup) (all_explicit _ _ _ _ _ _ Hsup) HE3 HM)) as R1.
  assert (Hte : ex_temporal e <> []).
  { intros Ee. rewrite Ee in HET. apply Forall2_nil_inv_l in HET as ->. by apply Forall2_nil_inv_r in HdT. }
  assert (exists f, solver_create (schemesT "backwardEuler") = f /\ match f with Ok _ => False | _ => True end) as (f & Hf & Hnf)
    by (eexists; split; [vm_compute; reflexivity|exact I]).
  set (r0 := match f with Ok _ => Exit | Throw a => Throw a | Exit => Exit | UB => UB end : outcome (heap Qc * tstate)).
  assert (Hrun : dsl_solve true cxS 0 bcsT solve_exactly (schemesT "backwardEuler") solvers h1 e 0%Qc 1%Qc stT r0).
  { unfold dsl_solve. destruct (ex_temporal e) as [|tp tl] eqn:Ete; [done|].
    rewrite (rseq_surely _ _ (tt, h3)) by (intros r'; rewrite Eb; reflexivity). cbv beta iota.
    rewrite (rseq_surely _ _ [("type", AString "backwardEuler"); ("Runge-Kutta-Method", AString "Forward-Euler")]%string) by (intros r'; done).
    assert (Hb0 : backwardEuler_solve cxS 0 solve_exactly (schemesT "backwardEuler") h3 e 1%Qc stT
      (match f with Ok _ => Exit | Throw a => Throw a | Exit => Exit | UB => UB end)).
    { unfold backwardEuler_solve. rewrite (rseq_surely _ _ _ _ R1), (rseq_surely _ _ _ _ cxS_pattern). cbv zeta.
      change (length (sp_diagOffset (cx_pattern cxS))) with (nCells (cx_mesh cxS)).
      rewrite <- rseq_assoc. rewrite (rseq_surely _ _ _ _ A1). unfold solver_solve. rewrite Hf.
      destruct f; [done|..]; unfold rseq; naive_solver. }
    change (rseq (backwardEuler_solve cxS 0 solve_exactly (schemesT "backwardEuler") h3 e 1%Qc stT) (fun st' r' => r' = Ok (h3, st')) r0).
    subst r0. destruct f; [done|..]; unfold rseq; naive_solver. }
  destruct (HH true cxS 0 bcsT solve_exactly (schemesT "backwardEuler") solvers _ "Ginkgo"%string selT (heapT Implicit) eqnT stT 0%Qc 1%Qc e h1 r0
    cxS_setup stS_ok W S ltac:(discriminate) Sel Hsup Himp cxS_pattern Htot eq_refl eq_refl eq_refl E Hrun) as (? & ? & Hr).
  subst r0. by destruct f.
Qed.
Print Assumptions C86_solver_dictionary_refuted.
