(** C49: the Runge-Kutta integrator. *)
From Verif Require Import Base Dict Registry Par Exec Reduce ReduceProofs Fields FieldsProofs Value Kernel Mesh MeshSpec Coeff FV FVSpec Sparsity SparsitySpec Assembly AssemblySpec AssemblyProps
  Boundary Properties_Boundary ExampleMesh Dsl DslSpec DslHeapProofs DslProofs DslAssembly Properties_Dsl Properties_DslAssembly
  TimeInt TimeSpec TimeIntProofs TimeIntSteps TimeIntRK Properties_TimeInt.

(** Every method name other than Forward-Euler terminates; no step is made with
    another table. *)
Theorem C49_method : forall key,
  (key = "Forward-Euler"%string /\ stringToERKTable key = Ok FORWARD_EULER_1_1) \/
  (key <> "Forward-Euler"%string /\ stringToERKTable key = Exit).
Proof.
  intros key. unfold stringToERKTable. destruct (decide (key = "Forward-Euler"%string)); [by left|]. right. split; [done|].
  by repeat destruct (decide _).
Qed.
Print Assumptions C49_method.
Theorem C49_first_step_needs_forward_euler : forall cx n d h exp t dt st s h' st',
  dt <> 0%Qc ->
  rungeKutta_solve cx n d None h exp t dt st (Ok (s, h', st')) -> get_string d "Runge-Kutta-Method" = Ok "Forward-Euler"%string.
Proof.
  intros cx n d h exp t dt st s h' st' Hdt Hr. unfold rungeKutta_solve in Hr.
  destruct Hr as [([s1 h1] & Hi & _)|[(x & _ & Hr)|[[_ Hr]|[_ Hr]]]]; try discriminate.
  unfold rk_init in Hi. destruct (copyE exp h) as [[e h2]|x| |]; try discriminate.
  destruct Hi as (junk & _ & [(ic & _ & Hk)|[(x & _ & Hk)|[[_ Hk]|[_ Hk]]]]); try discriminate.
  destruct (get_string d "Runge-Kutta-Method") as [key|x| |]; try discriminate.
  destruct (C49_method key) as [[-> _]|[_ E]]; [done|]. rewrite E in Hk. discriminate.
Qed.
Print Assumptions C49_first_step_needs_forward_euler.

(** ** A step. *)
Definition boundary_kept (st st' : tstate) : Prop :=
  vf_value (ts_phi st') = vf_value (ts_phi st) /\ vf_refValue (ts_phi st') = vf_refValue (ts_phi st) /\
  vf_valueFraction (ts_phi st') = vf_valueFraction (ts_phi st) /\ vf_refGrad (ts_phi st') = vf_refGrad (ts_phi st).

(** The integrator has made the step that ended in this state at this time. *)
Definition up_to_date (s : rkState) (t : Qc) (st : tstate) : Prop := rk_yn s = old_of st /\ rk_tn s = t.

(** Several steps of one integrator, which keeps its state between steps, at
    consecutive times. *)
Fixpoint rk_steps cx n d (exp : expression) (dts : list Qc) (self : option rkState) (h : heap Qc) (t : Qc) (st : tstate)
  (r : outcome (option rkState * heap Qc * tstate)) : Prop :=
  match dts with
  | [] => r = Ok (self, h, st)
  | dt :: dts' => rseq (rungeKutta_solve cx n d self h exp t dt st)
      (fun '(s, h', st') r' => rk_steps cx n d exp dts' (Some s) h' (t + dt)%Qc st' r') r
  end.

Theorem C49_steps : forall cx n bcs d h eqn t st,
  setup_ok cx bcs -> state_ok cx st ->
  equation_wf h (nCells (cx_mesh cx)) eqn -> single_fields h eqn -> explicit_supported cx n (fun k => k) h eqn st ->
  get_string d "Runge-Kutta-Method" = Ok "Forward-Euler"%string ->
  exists e h', eval_equation eqn h = Ok (e, h') /\ forall dts, Forall (fun dt => dt <> 0%Qc) dts -> exists (f : nat -> tstate) s h'',
    f 0 = st /\ surely (rk_steps cx n d e dts None h' t st) (s, h'', f (length dts)) /\
    forall i dt, dts !! i = Some dt ->
      euler_internal cx (explicit_part cx n (fun k => k) h eqn (f i)) dt (f i) (f (S i)) /\ boundary_kept (f i) (f (S i)).
Proof.
  intros cx n bcs d h eqn t st Hset Hst Hwf Hsf Hsup Hkey.
  destruct (eval_equation_spec (nCells (cx_mesh cx)) h eqn h (ext_refl h) Hwf) as [[_ Hok]|[Hn _]]; [|done].
  destruct Hok as (e & h1 & E & Hx & [ts ss] & HE & HM). exists e, h1. split; [done|].
  assert (Hid : map (selected (fun k => k)) ss = ss) by (etransitivity; [|apply map_id]; apply map_ext; by intros []).
  assert (Hadd : forall st0 h' e', state_ok cx st0 -> isE h' e' (ts, ss) ->
    adds (nCells (cx_mesh cx)) (explicitOperation (at_state cx n st0) h' e') (explicit_part cx n (fun k => k) h eqn st0)).
  { intros st0 h' e' Hs0 He'. apply (equation_adds cx n (fun k => k) h eqn st0 h' e' ts ss (proj1 Hset)); [|by rewrite Hid|done].
    apply (supported_state cx n _ h eqn st); [apply Hs0|done]. }
  (* steps of an initialised integrator *)
  assert (Hlater : forall dts, Forall (fun dt => dt <> 0%Qc) dts -> forall s h' t st, state_ok cx st -> up_to_date s t st -> isE h' (rk_expr s) (ts, ss) ->
    exists (f : nat -> tstate) s' h'', f 0 = st /\ surely (rk_steps cx n d e dts (Some s) h' t st) (s', h'', f (length dts)) /\
    forall i dt, dts !! i = Some dt ->
      euler_internal cx (explicit_part cx n (fun k => k) h eqn (f i)) dt (f i) (f (S i)) /\ boundary_kept (f i) (f (S i))).
  { clear t st Hst Hsup. intros dts. induction dts as [|dt dts IH]; intros Hdts s h' t st Hst [Hy Ht] He'.
    - exists (fun _ => st), (Some s), h'. split; [done|]. split; [apply surely_ret|]. intros i dt Hi. done.
    - apply Forall_cons in Hdts as [Hd1 Hdts]. set (g := explicit_part cx n (fun k => k) h eqn st).
      assert (Hly : length (rk_yn s) = nCells (cx_mesh cx)) by (rewrite Hy; apply Hst).
      pose proof (rk_step cx n d h' e s t dt st g Hst Hly Ht Hd1 (Hadd st h' (rk_expr s) Hst He')) as A. rewrite Hy in A.
      set (y := advanced cx (old_of st) g dt) in *.
      assert (Hly2 : length y = nCells (cx_mesh cx)) by (apply advanced_length, Hst).
      destruct (IH Hdts (RkState (rk_expr s) y (t + dt)%Qc) h' (t + dt)%Qc (TState (with_int (ts_phi st) y) (Some y))) as (f & s' & h'' & F0 & Fs & Fi).
      { by apply (advanced_state cx st g dt). }
      { done. }
      { done. }
      exists (fun i => match i with 0 => st | S i => f i end), s', h''. split; [done|]. split.
      + simpl. eapply surely_rseq; [exact A|]. cbv beta iota. exact Fs.
      + intros [|i] dt' Hi; simpl in *; [|by apply Fi]. injection Hi as <-. rewrite F0. split; [|done]. by apply (advanced_euler cx st g dt). }
  intros [|dt dts] Hdts.
  - exists (fun _ => st), None, h1. split; [done|]. split; [apply surely_ret|]. intros i dt Hi. done.
  - apply Forall_cons in Hdts as [Hd1 Hdts]. set (g := explicit_part cx n (fun k => k) h eqn st).
    destruct (rk_first cx n d h1 e (ts, ss) t dt st g Hst Hd1 Hkey HE) as (e' & h' & Hx' & HE' & A); [intros; by apply Hadd|].
    set (y := advanced cx (old_of st) g dt) in *.
    assert (Hly2 : length y = nCells (cx_mesh cx)) by (apply advanced_length, Hst).
    destruct (Hlater dts Hdts (RkState e' y (t + dt)%Qc) h' (t + dt)%Qc (TState (with_int (ts_phi st) y) (Some y))) as (f & s' & h'' & F0 & Fs & Fi).
    { by apply (advanced_state cx st g dt). }
    { done. }
    { done. }
    exists (fun i => match i with 0 => st | S i => f i end), s', h''. split; [done|]. split.
    + simpl. eapply surely_rseq; [exact A|]. cbv beta iota. exact Fs.
    + intros [|i] dt' Hi; simpl in *; [|by apply Fi]. injection Hi as <-. rewrite F0. split; [|done]. by apply (advanced_euler cx st g dt).
Qed.
Print Assumptions C49_steps.

(** ** Through dsl::solve, which makes a new integrator at every call. *)
Theorem C49_time_loop : forall dbg cx n bcs lin fvSchemes fvSolution schemes sel h eqn st,
  setup_ok cx bcs -> state_ok cx st ->
  equation_wf h (nCells (cx_mesh cx)) eqn -> single_fields h eqn -> temporal_objects eqn <> [] ->
  schemes_selected cx fvSchemes sel h eqn -> explicit_supported cx n sel h eqn st ->
  dict_subDict fvSchemes "ddtSchemes" = Ok schemes -> get_string schemes "type" = Ok "Runge-Kutta"%string ->
  get_string schemes "Runge-Kutta-Method" = Ok "Forward-Euler"%string ->
  exists e h', eval_equation eqn h = Ok (e, h') /\ forall l, Forall (fun tdt => tdt.2 <> 0%Qc) l -> exists (f : nat -> tstate) h'',
    f 0 = st /\ surely (time_loop dbg cx n bcs lin fvSchemes fvSolution e l h' st) (h'', f (length l)) /\
    forall i t dt, l !! i = Some (t, dt) ->
      euler_internal cx (explicit_part cx n sel h eqn (f i)) dt (f i) (f (S i)) /\ boundary_kept (f i) (f (S i)).
Proof.
  intros dbg cx n bcs lin fvSchemes fvSolution schemes sel h eqn st Hset Hst Hwf Hsf Htne Hsel Hsup Hsub Hty Hkey.
  destruct (eval_equation_spec (nCells (cx_mesh cx)) h eqn h (ext_refl h) Hwf) as [[_ Hok]|[Hn _]]; [|done].
  destruct Hok as (e & h1 & E & Hx & [ts ss] & [HET HES] & HM). exists e, h1. split; [done|]. simpl in HET, HES.
  pose proof HM as [[HdT HdS] _]. simpl in HdT, HdS.
  assert (Hbuild : forall o, o ∈ ss -> op_build cx fvSchemes o = Ok (selected sel o)).
  { intros o Ho. destruct (derivedS_leaves _ _ _ _ HdS o Ho) as (p & o0 & Hp & E0 & Ek & _).
    apply (op_build_kind cx fvSchemes sel o o0 Ek). by apply (Hsel p). }
  assert (Hte : ex_temporal e <> []).
  { intros Ee. rewrite Ee in HET. apply Forall2_nil_inv_l in HET as ->. by apply Forall2_nil_inv_r in HdT. }
  intros l Hl.
  apply (loop_lemma dbg cx n bcs lin fvSchemes fvSolution e
    (fun h2 st2 => Forall2 (isT h2) (ex_temporal e) ts /\ state_ok cx st2 /\
       (Forall2 (isS h2) (ex_spatial e) ss \/ Forall2 (isS h2) (ex_spatial e) (map (selected sel) ss)))
    (fun dt st1 st2 => euler_internal cx (explicit_part cx n sel h eqn st1) dt st1 st2 /\ boundary_kept st1 st2)); [|split; [done|]; split; [done|by left]].
  intros h2 st2 t dt (HT2 & Hst2 & HS2) Hin.
  assert (Hd1 : dt <> 0%Qc) by (rewrite Forall_forall in Hl; exact (Hl _ Hin)).
  destruct (build_again cx n fvSchemes sel e ss ts h2 st2 Hbuild HT2 HS2) as (h3 & Eb & HT3 & HS3).
  set (g := explicit_part cx n sel h eqn st2).
  destruct (rk_first cx n schemes h3 e (ts, map (selected sel) ss) t dt st2 g Hst2 Hd1 Hkey (conj HT3 HS3)) as (e' & h' & Hx' & HE' & A).
  { intros h' e' He'. apply (equation_adds cx n sel h eqn st2 h' e' ts ss (proj1 Hset)); [|done|done].
    apply (supported_state cx n _ h eqn st); [apply Hst2|done]. }
  set (y := advanced cx (old_of st2) g dt) in *.
  assert (Hly2 : length y = nCells (cx_mesh cx)) by (apply advanced_length, Hst2).
  exists h', (TState (with_int (ts_phi st2) y) (Some y)). split; [|split].
  - unfold dsl_solve. destruct (ex_temporal e) as [|tp tl] eqn:Ete; [done|].
    eapply surely_rseq; [intros r'; rewrite Eb; reflexivity|]. cbv beta iota.
    eapply surely_rseq; [intros r'; rewrite Hsub; reflexivity|].
    apply (surely_iff (rseq (rungeKutta_solve cx n schemes None h3 e t dt st2) (fun '(_, h2, st2) r' => r' = Ok (h2, st2)))).
    { intros r'. unfold timeIntegration_solve. rewrite Hty.
      assert (checked known_integrator (Ok "Runge-Kutta"%string) = Ok "Runge-Kutta"%string) as -> by reflexivity.
      rewrite !decide_False by discriminate. done. }
    eapply surely_rseq; [exact A|]. apply surely_ret.
  - split; [by apply (F2_T h3)|]. split; [by apply (advanced_state cx st2 g dt)|]. right. by apply (F2_S h3).
  - split; [|done]. by apply (advanced_euler cx st2 g dt).
Qed.
Print Assumptions C49_time_loop.

(** ** Same interior values as the forward Euler integrator. *)
Lemma euler_internal_unique cx g dt st st1 st2 :
  euler_internal cx g dt st st1 -> euler_internal cx g dt st st2 -> vf_int (ts_phi st1) = vf_int (ts_phi st2).
Proof.
  intros [L1 V1 _] [L2 V2 _]. apply (list_eq_same_length _ _ (nCells (cx_mesh cx))); [done..|].
  intros i x y Hi Hx Hy. specialize (V1 i Hi). specialize (V2 i Hi). unfold at0 in *. rewrite Hx in V1. rewrite Hy in V2. simpl in *. congruence.
Qed.
Theorem C49_matches_forward_euler : forall dbg cx n bcs d h eqn t dt st,
  setup_ok cx bcs -> state_ok cx st ->
  equation_wf h (nCells (cx_mesh cx)) eqn -> single_fields h eqn -> explicit_supported cx n (fun k => k) h eqn st ->
  get_string d "Runge-Kutta-Method" = Ok "Forward-Euler"%string -> dt <> 0%Qc ->
  exists e h', eval_equation eqn h = Ok (e, h') /\ exists s h'' st1 st2,
    surely (rungeKutta_solve cx n d None h' e t dt st) (s, h'', st1) /\
    surely (forwardEuler_solve dbg cx n bcs h' e dt st) st2 /\
    vf_int (ts_phi st1) = vf_int (ts_phi st2) /\ ts_old st1 = ts_old st2.
Proof.
  intros dbg cx n bcs d h eqn t dt st Hset Hst Hwf Hsf Hsup Hkey Hdt.
  destruct (eval_equation_spec (nCells (cx_mesh cx)) h eqn h (ext_refl h) Hwf) as [[_ Hok]|[Hn _]]; [|done].
  destruct Hok as (e & h1 & E & Hx & [ts ss] & HE & HM). exists e, h1. split; [done|].
  assert (Hid : map (selected (fun k => k)) ss = ss) by (etransitivity; [|apply map_id]; apply map_ext; by intros []).
  assert (Hadd : forall h' e', isE h' e' (ts, ss) ->
    adds (nCells (cx_mesh cx)) (explicitOperation (at_state cx n st) h' e') (explicit_part cx n (fun k => k) h eqn st)).
  { intros h' e' He'. apply (equation_adds cx n (fun k => k) h eqn st h' e' ts ss (proj1 Hset)); [done|by rewrite Hid|done]. }
  destruct (rk_first cx n d h1 e (ts, ss) t dt st _ Hst Hdt Hkey HE Hadd) as (e' & h' & _ & _ & A).
  destruct (forwardEuler_step dbg cx n bcs Hset h1 e dt st _ Hst (Hadd h1 e HE)) as (st' & B & _ & [C _]).
  eexists _, h', _, st'. split; [exact A|]. split; [exact B|].
  assert (Hv : advanced cx (old_of st) (explicit_part cx n (fun k => k) h eqn st) dt = vf_int (ts_phi st')).
  { pose proof (euler_internal_unique _ _ _ _ _ _ (advanced_euler cx st (explicit_part cx n (fun k => k) h eqn st) dt Hst) C) as U. exact U. }
  split; [exact Hv|]. destruct C as [_ _ ->]. by rewrite <- Hv.
Qed.
Print Assumptions C49_matches_forward_euler.

(** Example: the equation of C47_instance, two steps of one integrator. *)
Definition rkT : dict := [("Runge-Kutta-Method", AString "Forward-Euler")]%string.
Example C49_instance : exists e h', eval_equation eqnT (heapU 1%Qc Explicit) = Ok (e, h') /\ exists f s h'',
  surely (rk_steps cx3 0 rkT e [Q2Qc (1 # 2); Q2Qc (1 # 2)] None h' 0%Qc stT) (s, h'', f 2) /\
  at0 (vf_int (ts_phi (f 1))) 1 = Q2Qc (5 # 2).
Proof.
  destruct (wfU 1%Qc Explicit) as (W & S & X & _).
  destruct (C49_steps cx3 0 bcsT rkT (heapU 1%Qc Explicit) eqnT 0%Qc stT setupT stT_ok W S X eq_refl) as (e & h' & E & HA).
  exists e, h'. split; [done|]. destruct (HA [Q2Qc (1 # 2); Q2Qc (1 # 2)]) as (f & s & h'' & F0 & Fs & Fi).
  { repeat constructor; discriminate. }
  exists f, s, h''. split; [done|]. destruct (Fi 0 _ eq_refl) as [[_ V _] _]. rewrite V by (simpl; lia). rewrite F0.
  apply Qc_is_canon; vm_compute; reflexivity.
Qed.

(** ** Unlike forward Euler, the step does not apply the boundary conditions. *)
Theorem C87_boundary_refuted : ~ forall dbg cx n bcs d h eqn t dt st e h' s h'' st1 st2,
  setup_ok cx bcs -> state_ok cx st ->
  equation_wf h (nCells (cx_mesh cx)) eqn -> single_fields h eqn -> explicit_supported cx n (fun k => k) h eqn st ->
  get_string d "Runge-Kutta-Method" = Ok "Forward-Euler"%string -> dt <> 0%Qc ->
  eval_equation eqn h = Ok (e, h') ->
  rungeKutta_solve cx n d None h' e t dt st (Ok (s, h'', st1)) ->
  forwardEuler_solve dbg cx n bcs h' e dt st (Ok st2) -> st1 = st2.
Proof.
  intros HH. destruct (wfU 1%Qc Explicit) as (W & S & X & _).
  destruct (C49_matches_forward_euler true cx3 0 bcsT rkT (heapU 1%Qc Explicit) eqnT 0%Qc 1%Qc stT setupT stT_ok W S X eq_refl ltac:(discriminate))
    as (e & h' & E & s & h'' & st1 & st2 & A & B & _).
  destruct (C47_step true cx3 0 bcsT (heapU 1%Qc Explicit) eqnT 1%Qc stT setupT stT_ok W S X) as (e' & h0 & st' & E' & A' & _ & [_ [C _]]).
  rewrite E in E'. injection E' as <- <-. assert (st' = st2) as ->.
  { assert (Ok st' = Ok st2) as Eo by (apply B, A'; reflexivity). by injection Eo. }
  specialize (HH true cx3 0 bcsT rkT _ eqnT 0%Qc 1%Qc stT e h' s h'' st1 st2 setupT stT_ok W S X eq_refl ltac:(discriminate) E (proj2 (A _) eq_refl) (proj2 (B _) eq_refl)).
  subst st2. specialize (C (Patch 0 0 1) (FixedValue (Q2Qc 7)) (Value 0) _ ltac:(left) eq_refl).
  destruct (C49_steps cx3 0 bcsT rkT (heapU 1%Qc Explicit) eqnT 0%Qc stT setupT stT_ok W S X eq_refl) as (e2 & h2 & E2 & HA).
  rewrite E in E2. injection E2 as <- <-. destruct (HA [1%Qc]) as (f & s2 & h3 & F0 & Fs & Fi); [repeat constructor; discriminate|].
  simpl in Fs. assert (f 1 = st1) as <-.
  { assert (Hr : rk_steps cx3 0 rkT e [1%Qc] None h' 0%Qc stT (Ok (Some s, h'', st1))).
    { simpl. left. exists (s, h'', st1). split; [by apply A|done]. }
    apply Fs in Hr. by injection Hr. }
  destruct (Fi 0 _ eq_refl) as [_ [Hb _]]. rewrite F0 in Hb. simpl in C. rewrite Hb in C. vm_compute in C. discriminate.
Qed.
Print Assumptions C87_boundary_refuted.

(** ** An integrator that is kept does not see changes of the old-time field made
    between steps (it continues from its own copy of the solution). *)
Theorem C87_external_change_refuted : ~ forall cx n bcs d h eqn t dt st st1 e h' s h'' s2 h2 st2,
  setup_ok cx bcs -> state_ok cx st -> state_ok cx st1 ->
  equation_wf h (nCells (cx_mesh cx)) eqn -> single_fields h eqn -> explicit_supported cx n (fun k => k) h eqn st ->
  get_string d "Runge-Kutta-Method" = Ok "Forward-Euler"%string -> dt <> 0%Qc ->
  eval_equation eqn h = Ok (e, h') ->
  (exists st0, rungeKutta_solve cx n d None h' e t dt st (Ok (s, h'', st0))) ->
  rungeKutta_solve cx n d (Some s) h'' e (t + dt)%Qc dt st1 (Ok (s2, h2, st2)) ->
  euler_internal cx (explicit_part cx n (fun k => k) h eqn st1) dt st1 st2.
Proof.
  intros HH. destruct (wfU 1%Qc Explicit) as (W & S & X & _).
  destruct (eval_equation_spec 3 (heapU 1%Qc Explicit) eqnT _ (ext_refl _) W) as [[_ Hok]|[Hn _]]; [|done].
  destruct Hok as (e & h1 & E & Hx & [ts ss] & HE & HM).
  assert (Hid : map (selected (fun k => k)) ss = ss) by (etransitivity; [|apply map_id]; apply map_ext; by intros []).
  set (st1 := TState (with_int (ts_phi stT) [0; 0; 0]%Qc) (Some [0; 0; 0]%Qc)).
  assert (Hst1 : state_ok cx3 st1) by (repeat split).
  assert (Hadd : forall st h' e', state_ok cx3 st -> isE h' e' (ts, ss) ->
    adds (nCells (cx_mesh cx3)) (explicitOperation (at_state cx3 0 st) h' e') (explicit_part cx3 0 (fun k => k) (heapU 1%Qc Explicit) eqnT st)).
  { intros st h' e' Hs He'. apply (equation_adds cx3 0 (fun k => k) (heapU 1%Qc Explicit) eqnT st h' e' ts ss (proj1 setupT)); [|by rewrite Hid|done].
    apply (supported_state cx3 0 _ _ eqnT stT); [apply Hs|done]. }
  destruct (rk_first cx3 0 rkT h1 e (ts, ss) 0%Qc 1%Qc stT (explicit_part cx3 0 (fun k => k) (heapU 1%Qc Explicit) eqnT stT) stT_ok ltac:(discriminate) eq_refl HE)
    as (e' & h' & _ & HE' & A); [intros; by apply Hadd; [apply stT_ok|]|].
  set (y := advanced cx3 (old_of stT) (explicit_part cx3 0 (fun k => k) (heapU 1%Qc Explicit) eqnT stT) 1%Qc) in *.
  pose proof (rk_step cx3 0 rkT h' e (RkState e' y (0 + 1)%Qc) (0 + 1)%Qc 1%Qc st1 (explicit_part cx3 0 (fun k => k) (heapU 1%Qc Explicit) eqnT st1) Hst1 eq_refl eq_refl
    ltac:(discriminate) (Hadd st1 h' e' Hst1 HE')) as B.
  pose proof (proj2 (A _) eq_refl) as A'. pose proof (proj2 (B _) eq_refl) as B'.
  assert (A'' : exists st0, rungeKutta_solve cx3 0 rkT None h1 e 0%Qc 1%Qc stT (Ok (RkState e' y (0 + 1)%Qc, h', st0))) by (eexists; exact A').
  pose proof (HH cx3 0 bcsT rkT (heapU 1%Qc Explicit) eqnT 0%Qc 1%Qc stT st1 e h1 (RkState e' y (0 + 1)%Qc) h' _ h' _ setupT stT_ok Hst1 W S X eq_refl
    (fun H : 1%Qc = 0%Qc => ltac:(discriminate H)) E A'' B') as [_ V _].
  specialize (V 2 ltac:(simpl; lia)). apply (f_equal this) in V. vm_compute in V. discriminate.
Qed.
Print Assumptions C87_external_change_refuted.
