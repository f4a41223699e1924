(** What holds instead, for all inputs, of the refuted claims about equations and
    time integration. *)
From Verif Require Import Base Dict Registry Par Exec Reduce ReduceProofs Fields FieldsProofs Value Kernel Mesh MeshSpec Coeff FV FVSpec Sparsity SparsitySpec Assembly AssemblySpec AssemblyProps
  Boundary Properties_Boundary ExampleMesh Properties_Sparsity Properties_Assembly Dsl DslSpec DslHeapProofs DslProofs DslAssembly Properties_Dsl Properties_DslAssembly
  TimeInt TimeSpec TimeIntProofs TimeIntSteps TimeIntRK Properties_TimeInt Properties_RK.

(** The operators of an expression without those [drop] selects. *)
Definition without {V} (h : heap V) (drop : spatialOp V -> bool) (e : expression) : expression :=
  Expression (ex_temporal e) (List.filter (fun p => match h_spatial h !! p with Some o => negb (drop o) | None => true end) (ex_spatial e)).
Definition source_term {V} (o : spatialOp V) : bool := match so_kind o with SourceTerm _ _ => true | _ => false end.
Definition divergence {V} (o : spatialOp V) : bool := match so_kind o with DivOperator _ _ _ => true | _ => false end.
Definition has_type {V} (t : opType) (o : spatialOp V) : bool := bool_decide (so_type o = t).

Lemma rseq_ok {A B} (a : A) (k : A -> outcome B -> Prop) r : rseq (fun r => r = Ok a) k r <-> k a r.
Proof. apply rseq_surely. intros r'. done. Qed.
Lemma rseq_iff_both {A B} (p p' : outcome A -> Prop) (k k' : A -> outcome B -> Prop) r :
  (forall r, p r <-> p' r) -> (forall a r, k a r <-> k' a r) -> rseq p k r <-> rseq p' k' r.
Proof. intros Hp Hk. unfold rseq. setoid_rewrite Hp. setoid_rewrite Hk. done. Qed.

Lemma rseq_const {A B} (p : outcome A -> Prop) (K : outcome B -> Prop) r :
  (exists a, p (Ok a)) -> (forall o, p o -> exists a, o = Ok a) -> rseq p (fun _ => K) r <-> K r.
Proof.
  intros [s Hs] Hok. split.
  - intros [(a & _ & Hr)|[(x & Hr & _)|[[Hr _]|[Hr _]]]]; [done| | |]; destruct (Hok _ Hr); discriminate.
  - intros Hr. left. by exists s.
Qed.

Section drop.
  Context {V : Type} `{ValueType V} `{ValueUnit V} `{ValueTag V}.
  Lemma drop_explicit cx (h : heap V) (drop : spatialOp V -> bool) l :
    (forall p o, h_spatial h !! p = Some o -> drop o = true -> so_type o = Explicit -> forall s r, spatial_explicit cx o s r <-> r = Ok s) ->
    forall s r, run_explicit cx h l s r <->
      run_explicit cx h (List.filter (fun p => match h_spatial h !! p with Some o => negb (drop o) | None => true end) l) s r.
  Proof.
    intros Hd. induction l as [|p l IH]; intros s r; [done|]. simpl.
    destruct (h_spatial h !! p) as [o|] eqn:E; [|simpl; by rewrite E].
    destruct (drop o) eqn:Ed; simpl.
    - destruct (decide (so_type o = Explicit)) as [Ht|]; [|apply IH].
      rewrite <- (IH s r). rewrite (rseq_surely _ _ s r); [done|]. intros r'. exact (Hd p o E Ed Ht s r').
    - rewrite E. destruct (decide (so_type o = Explicit)); [|apply IH]. apply rseq_iff. intros; apply IH.
  Qed.
  Lemma drop_implicit cx (h : heap V) ro (drop : spatialOp V -> bool) l :
    (forall p o, h_spatial h !! p = Some o -> drop o = true -> so_type o = Implicit -> forall s r, spatial_implicit cx ro o s r <-> r = Ok s) ->
    forall s r, run_implicit cx h ro l s r <->
      run_implicit cx h ro (List.filter (fun p => match h_spatial h !! p with Some o => negb (drop o) | None => true end) l) s r.
  Proof.
    intros Hd. induction l as [|p l IH]; intros s r; [done|]. simpl.
    destruct (h_spatial h !! p) as [o|] eqn:E; [|simpl; by rewrite E].
    destruct (drop o) eqn:Ed; simpl.
    - destruct (decide (so_type o = Implicit)) as [Ht|]; [|apply IH].
      rewrite <- (IH s r). rewrite (rseq_surely _ _ s r); [done|]. intros r'. exact (Hd p o E Ed Ht s r').
    - rewrite E. destruct (decide (so_type o = Implicit)); [|apply IH]. apply rseq_iff. intros; apply IH.
  Qed.
End drop.

(** * C80: an equation behaves as if its source terms were not there (whatever
    their type and coefficients), in explicit evaluation, in implicit evaluation
    and in assembly. *)
Theorem C80_source_terms_ignored : forall {V} `{ValueType V} `{ValueUnit V} `{ValueTag V} (cx : ctx V) h e,
  (forall source r, explicitOperation cx h e source r <-> explicitOperation cx h (without h source_term e) source r) /\
  (forall rowOffs ls r, implicitOperation cx h rowOffs e ls r <-> implicitOperation cx h rowOffs (without h source_term e) ls r) /\
  (forall dt ls r, assemble cx h e dt ls r <-> assemble cx h (without h source_term e) dt ls r).
Proof.
  intros V ? ? ? cx h e.
  assert (Hex : forall source r, explicitOperation cx h e source r <-> explicitOperation cx h (without h source_term e) source r).
  { intros source r. apply drop_explicit. intros p o _ Hs _ s r'. unfold spatial_explicit.
    destruct o as [k t c]. unfold source_term in Hs. simpl in *. destruct k; try discriminate. done. }
  assert (Him : forall rowOffs ls r, implicitOperation cx h rowOffs e ls r <-> implicitOperation cx h rowOffs (without h source_term e) ls r).
  { intros ro ls r. apply drop_implicit. intros p o _ Hs _ s r'. unfold spatial_implicit.
    destruct o as [k t c]. unfold source_term in Hs. simpl in *. destruct k; try discriminate. done. }
  split; [done|]. split; [done|]. intros dt ls r. unfold assemble.
  apply rseq_iff_both; [intros; apply Hex|]. intros s0 r0. apply rseq_iff. intros s1 r1. apply rseq_iff_both; [intros; apply Him|].
  intros ls1 r2. done.
Qed.
Print Assumptions C80_source_terms_ignored.

(** Explicit divergences of vector fields are ignored as well. *)
Theorem C80_vector_divergence_ignored : forall (cx : ctx vec) h e source r,
  explicitOperation cx h e source r <-> explicitOperation cx h (without h divergence e) source r.
Proof.
  intros cx h e source r. apply (drop_explicit (V := vec)). intros p o _ Hs _ s r'. unfold spatial_explicit.
  destruct o as [k t c]. unfold divergence in Hs. simpl in *. destruct k; try discriminate. done.
Qed.
Print Assumptions C80_vector_divergence_ignored.

(** A source term that is dropped. *)
Example C80_instance : without (Heap (V := Qc) [SpatialOp (SourceTerm 0 0) Explicit coeff_default; SpatialOp (DivOperator 0 0 (Some Linear)) Explicit coeff_default] [])
  source_term (Expression [] [0; 1]) = Expression [] [1].
Proof. reflexivity. Qed.

(** * C83: explicit time derivatives are the same whatever factor the equation is
    multiplied with ... *)
Lemma run_T_values {V} `{ValueType V} `{ValueUnit V} `{ValueTag V} (cx : ctx V) dt l : forall h h' l' (k : Qc) os,
  Forall2 (isT h) l os -> Forall2 (isT h') l' (map (scaleT k) os) ->
  forall s r, run_explicit_T cx h dt l s r <-> run_explicit_T cx h' dt l' s r.
Proof.
  induction l as [|p l IH]; intros h h' l' k os HA HB s r.
  - apply Forall2_nil_inv_l in HA as ->. apply Forall2_nil_inv_r in HB as ->. done.
  - apply Forall2_cons_inv_l in HA as (o & os' & Ho & HA & ->). simpl in HB.
    apply Forall2_cons_inv_r in HB as (p' & l'' & Ho' & HB & ->). simpl. unfold isT in *. rewrite Ho, Ho'. simpl.
    destruct (decide (to_type o = Explicit)); [|by apply (IH h h' l'' k os')].
    apply rseq_iff. intros a r'. by apply (IH h h' l'' k os').
Qed.
Theorem C83_scaling_ignored : forall {V} `{ValueType V} `{ValueUnit V} `{ValueTag V} (cx : ctx V) h x k dt source r,
  Forall (fun q => is_Some (h_temporal h !! q)) (ex_temporal x) -> Forall (fun p => is_Some (h_spatial h !! p)) (ex_spatial x) ->
  exists e h', eval_equation (EScale k (EVar x)) h = Ok (e, h') /\
    (explicitOperation_dt cx h' e dt source r <-> explicitOperation_dt cx h x dt source r).
Proof.
  intros V ? ? ? cx h x k dt source r HT HS.
  assert (HF : forall {A} (f : nat -> option A) l, Forall (fun q => is_Some (f q)) l -> exists os, Forall2 (fun p o => f p = Some o) l os).
  { intros A f l Hl. induction Hl as [|q l [o Ho] _ (os & Hos)]; [by exists []|]. exists (o :: os). by constructor. }
  destruct (HF _ _ _ HT) as (ts & Hts). destruct (HF _ _ _ HS) as (ss & Hss).
  destruct (scalar_times_expr_ok h k x (ts, ss)) as (e & h' & E & _ & HE); [by split|].
  exists e, h'. split; [exact E|]. destruct HE as [HE _]. simpl in HE. symmetry.
  by apply (run_T_values cx dt _ h h' _ k ts).
Qed.
Print Assumptions C83_scaling_ignored.

(** ... and assembled, they are multiplied by the cell volume twice, whatever
    their coefficient. *)
Theorem C83_explicit_ddt_assembly_exactly : forall (cx : ctx Qc) h q o dt values rhs,
  cx_fits cx -> h_temporal h !! q = Some o -> to_type o = Explicit ->
  length (vf_int (cx_vol cx (to_phi o))) = nCells (cx_mesh cx) -> length (cx_old cx (to_phi o)) = nCells (cx_mesh cx) ->
  sys_ok (cx_mesh cx) (cx_pattern cx) values rhs ->
  exists values' rhs', surely (assemble cx h (Expression [q] []) dt [values; rhs]) [values'; rhs'] /\
  forall x c, c < nCells (cx_mesh cx) -> residual (cx_pattern cx) values' rhs' x c =
    (at0 (cellVolumes (cx_mesh cx)) c * (at0 (cellVolumes (cx_mesh cx)) c * ((at0 (vf_int (cx_vol cx (to_phi o))) c - at0 (cx_old cx (to_phi o)) c) / dt)))%Qc.
Proof.
  intros cx h q o dt values rhs Hcx Hq Ht Hf Ho [Hv Hr]. pose proof (proj1 Hcx) as Hm.
  set (m := cx_mesh cx) in *. set (p := cx_pattern cx) in *.
  pose proof (@C38_ddt_explicit Qc _ _ m Hm (cx_exec cx) (to_coeff o) dt (vf_int (cx_vol cx (to_phi o))) (cx_old cx (to_phi o))
    (replicate (nCells m) 0%Qc) Hf Ho (replicate_length _ _)) as Hd.
  set (src := map (fun c => vadd (atV (replicate (nCells m) 0%Qc) c) (vscale (at0 (cellVolumes m) c / dt)%Qc
    (vsub (atV (vf_int (cx_vol cx (to_phi o))) c) (atV (cx_old cx (to_phi o)) c)))) (seq 0 (nCells m))) in *.
  destruct (subtract_source_contributes (cx_exec cx) m p src Hm) with (values := replicate (length values) 0%Qc) (rhs := replicate (length rhs) 0%Qc)
    as (v' & r' & A1 & A2 & A3).
  { unfold src. by rewrite map_length, seq_length. }
  { split; rewrite replicate_length; done. }
  exists v', r'. split.
  - unfold assemble. eapply surely_rseq; [apply surely_ret|]. apply (surely_rseq _ _ src [v'; r']).
    { unfold explicitOperation_dt. simpl. apply (surely_iff (temporal_explicit cx dt o (replicate (nCells m) 0%Qc))).
      - intros r. rewrite Hq, decide_True by done. unfold rseq. split.
        + intros Hr'. destruct r as [a|x| |]; [left; eauto|right; left; eauto|right; right; left; done|right; right; right; done].
        + intros [(a & H1 & ->)|[(x & H1 & ->)|[[H1 ->]|[H1 ->]]]]; done.
      - intros r. unfold temporal_explicit. simpl. split.
        + intros (o' & H1 & ->). apply Hd in H1 as ->. done.
        + intros ->. exists (Some [src]). split; [by apply Hd|done]. }
    eapply surely_rseq; [apply surely_ret|]. apply (surely_rseq _ _ [replicate (length values) 0%Qc; replicate (length rhs) 0%Qc] [v'; r']); [|exact A1].
    intros r. unfold implicitOperation_dt. simpl. rewrite Hq, decide_False by (by rewrite Ht). done.
  - intros x c Hc. rewrite A3 by done.
    destruct (residual_zero m p x c (length values) (length rhs)) as [E _]. change (@vzero Qc _) with 0%Qc in E. rewrite E.
    unfold src, atV. change (map ?f (seq 0 (nCells m))) with (f <$> seq 0 (nCells m)). rewrite list_lookup_fmap, lookup_seq_lt by done.
    simpl. rewrite lookup_replicate_2 by done. simpl. unfold at0, Qcdiv. ring.
Qed.
Print Assumptions C83_explicit_ddt_assembly_exactly.

(** Non-vacuity: an explicit time derivative with coefficient 3 on a cell of volume 2. *)
Example C83_instance : let phi := VolField [1%Qc] [0; 0]%Qc [0; 0]%Qc [1; 1]%Qc [0; 0]%Qc in
  let o := TemporalOp 0 Explicit (coeff_scalar (Q2Qc 3)) in let h := Heap (V := Qc) [] [o] in
  cx_fits (cx2 phi) /\ h_temporal h !! 0 = Some o /\ to_type o = Explicit /\
  length (vf_int (cx_vol (cx2 phi) (to_phi o))) = nCells (cx_mesh (cx2 phi)) /\ length (cx_old (cx2 phi) (to_phi o)) = nCells (cx_mesh (cx2 phi)) /\
  sys_ok (cx_mesh (cx2 phi)) (cx_pattern (cx2 phi)) [0%Qc] [0%Qc] /\ at0 (cellVolumes (cx_mesh (cx2 phi))) 0 = Q2Qc 2 /\
  Forall (fun q => is_Some (h_temporal h !! q)) [0].
Proof.
  cbv zeta. split; [apply cx2_fits|]. do 5 (split; [done|]). split; [done|]. repeat constructor. eauto.
Qed.

(** * C85: forward Euler makes the step of the equation with only its explicit
    spatial operators: implicit operators and time derivatives (their fields,
    coefficients, number) have no influence. *)
Theorem C85_only_explicit_operators : forall dbg cx n bcs (h : heap Qc) e dt st r,
  forwardEuler_solve dbg cx n bcs h e dt st r <->
  forwardEuler_solve dbg cx n bcs h (Expression [] (ex_spatial (without h (has_type Implicit) e))) dt st r.
Proof.
  intros dbg cx n bcs h e dt st r. unfold forwardEuler_solve. apply rseq_iff_both; [|done].
  intros r0. unfold explicitOperation_n, explicitOperation. apply (drop_explicit (V := Qc)).
  intros p o _ Hd Ht s r'. unfold has_type in Hd. apply bool_decide_eq_true in Hd. by rewrite Hd in Ht.
Qed.
Print Assumptions C85_only_explicit_operators.

(** Non-vacuity: the forward Euler step of an equation with an implicit divergence
    exists, and [without] does remove it. *)
Example C85_instance : exists e h' st', eval_equation eqnT (heapU 1%Qc Implicit) = Ok (e, h') /\
  forwardEuler_solve true cx3 0 bcsT h' e 1%Qc stT (Ok st') /\ length (ex_spatial e) = 1 /\ ex_temporal e <> [] /\
  ex_spatial (without h' (has_type Implicit) e) = [].
Proof.
  destruct (wfU 1%Qc Implicit) as (W & S & X & Y).
  destruct (C47_step true cx3 0 bcsT (heapU 1%Qc Implicit) eqnT 1%Qc stT setupT stT_ok W S X) as (e & h' & st' & E & A & _).
  exists e, h', st'. split; [done|]. split; [by apply A|]. vm_compute in E. injection E as <- <-.
  split; [reflexivity|]. split; [done|reflexivity].
Qed.

(** * C86: backward Euler makes the step of the equation without its explicit
    operators (if evaluating those succeeds) ... *)
Lemma run_explicit_pointers {V} `{ValueType V} `{ValueUnit V} `{ValueTag V} (cx : ctx V) h l : forall s s',
  run_explicit cx h l s (Ok s') -> Forall (fun p => is_Some (h_spatial h !! p)) l.
Proof.
  induction l as [|p l IH]; intros s s' Hr; [constructor|]. simpl in Hr.
  destruct (h_spatial h !! p) as [o|] eqn:E; [|discriminate]. constructor; [by eexists|].
  destruct (decide (so_type o = Explicit)); [|by eapply IH].
  destruct Hr as [(a & _ & Hr)|[(x & _ & Hr)|[[_ Hr]|[_ Hr]]]]; try discriminate. by eapply IH.
Qed.
Lemma run_explicit_none {V} `{ValueType V} `{ValueUnit V} `{ValueTag V} (cx : ctx V) h l : Forall (fun p => is_Some (h_spatial h !! p)) l ->
  forall s, surely (run_explicit cx h (List.filter (fun p => match h_spatial h !! p with Some o => negb (has_type Explicit o) | None => true end) l) s) s.
Proof.
  intros Hl. induction Hl as [|p l [o Eo] _ IH]; intros s; [apply surely_ret|]. simpl. rewrite Eo. unfold has_type at 1.
  destruct (bool_decide (so_type o = Explicit)) eqn:Eb; simpl; [apply IH|]. apply bool_decide_eq_false in Eb.
  apply (surely_iff (run_explicit cx h (List.filter (fun p => match h_spatial h !! p with Some o => negb (has_type Explicit o) | None => true end) l) s)); [|apply IH].
  intros r. by rewrite Eo, decide_False.
Qed.
Theorem C86_explicit_operators_ignored : forall cx n lin d (h : heap Qc) e dt st r,
  (exists s, explicitOperation_n (at_state cx n st) h e (length (vf_int (ts_phi st))) (Ok s)) ->
  (forall o, explicitOperation_n (at_state cx n st) h e (length (vf_int (ts_phi st))) o -> exists s, o = Ok s) ->
  backwardEuler_solve cx n lin d h e dt st r <-> backwardEuler_solve cx n lin d h (without h (has_type Explicit) e) dt st r.
Proof.
  intros cx n lin d h e dt st r [s Hs] Hok. unfold backwardEuler_solve.
  pose proof (run_explicit_none (V := Qc) (at_state cx n st) h (ex_spatial e)
    (run_explicit_pointers (V := Qc) _ _ _ _ _ Hs) (replicate (length (vf_int (ts_phi st))) 0%Qc)) as Hnone.
  etransitivity; [apply rseq_const; [by exists s|exact Hok]|].
  symmetry. etransitivity; [apply rseq_const|].
  { eexists. by apply Hnone. }
  { intros o Ho. eexists. by apply Hnone. }
  symmetry. apply rseq_iff. intros fresh r1. apply rseq_iff_both; [|done]. intros r2.
  apply (drop_implicit (V := Qc)). intros p o _ Hd Ht x r'. unfold has_type in Hd. apply bool_decide_eq_true in Hd. by rewrite Hd in Ht.
Qed.
Print Assumptions C86_explicit_operators_ignored.

(** ... never changes the boundary data ... *)
Theorem C86_boundary_unchanged : forall cx n lin d (h : heap Qc) e dt st st',
  backwardEuler_solve cx n lin d h e dt st (Ok st') -> boundary_kept st st'.
Proof.
  intros cx n lin d h e dt st st' Hr. unfold backwardEuler_solve in Hr.
  do 6 (destruct Hr as [(? & _ & Hr)|[(? & _ & Hr)|[[_ Hr]|[_ Hr]]]]; try discriminate).
  injection Hr as ->. done.
Qed.
Print Assumptions C86_boundary_unchanged.

(** ... and takes its solver settings from the schemes dictionary: what the
    solution dictionary says has no influence on any equation with a time
    derivative. *)
Theorem C86_solution_dictionary_ignored : forall dbg cx n bcs lin fvSchemes fvSolution fvSolution' (h : heap Qc) e t dt st r,
  ex_temporal e <> [] ->
  dsl_solve dbg cx n bcs lin fvSchemes fvSolution h e t dt st r <-> dsl_solve dbg cx n bcs lin fvSchemes fvSolution' h e t dt st r.
Proof.
  intros dbg cx n bcs lin fvSchemes s1 s2 h [ts ss] t dt st r Hne. unfold dsl_solve. simpl in *. destruct ts as [|q ts]; [done|]. done.
Qed.
Print Assumptions C86_solution_dictionary_ignored.

(** Non-vacuity: an explicit divergence, whose evaluation succeeds, and a backward
    Euler step. *)
Example C86_instance : exists e h', eval_equation eqnT (heapU 1%Qc Explicit) = Ok (e, h') /\ ex_temporal e <> [] /\
  (exists s, explicitOperation_n (at_state cxS 0 stT) h' e (length (vf_int (ts_phi stT))) (Ok s)) /\
  (forall o, explicitOperation_n (at_state cxS 0 stT) h' e (length (vf_int (ts_phi stT))) o -> exists s, o = Ok s) /\
  exists st', backwardEuler_solve cxS 0 solve_exactly solvers h' e 1%Qc stT (Ok st').
Proof.
  destruct (wfU 1%Qc Explicit) as (W & S & _).
  destruct (eval_equation_spec 3 (heapU 1%Qc Explicit) eqnT _ (ext_refl _) W) as [[_ Hok]|[Hn _]]; [|done].
  destruct Hok as (e & h' & E & Hx & [ts ss] & HE & HM).
  assert (Hid : map (selected (fun k => k)) ss = ss) by (etransitivity; [|apply map_id]; apply map_ext; by intros []).
  assert (Hsup : explicit_supported cxS 0 (fun k => k) (heapU 1%Qc Explicit) eqnT stT).
  { intros p o Hp Eo _. destruct (supportedS Explicit stT stS_ok) as [Hs _]. destruct (Hs p o Hp Eo) as [Hk _].
    split; [exact Hk|]. simpl in Hp. apply elem_of_list_singleton in Hp as ->. by injection Eo as <-. }
  assert (Hadd : adds 3 (explicitOperation (at_state cxS 0 stT) h' e) (explicit_part cxS 0 (fun k => k) (heapU 1%Qc Explicit) eqnT stT)).
  { apply (equation_adds cxS 0 (fun k => k) (heapU 1%Qc Explicit) eqnT stT h' e ts ss (proj1 cxS_setup)); [done|by rewrite Hid|done]. }
  specialize (Hadd (replicate 3 0%Qc) eq_refl).
  destruct (C48_system cxS 0 bcsT solve_exactly solvers "Ginkgo" (heapU 1%Qc Explicit) eqnT 1%Qc stT cxS_setup stS_ok W S
    (supportedS Explicit stT stS_ok) cxS_pattern eq_refl) as (e2 & h2 & v & b & E2 & [Hv Hb] & Hr & Hres).
  rewrite E in E2. injection E2 as <- <-.
  exists e, h'. split; [done|]. split; [vm_compute in E; injection E as <- <-; done|]. split; [eexists; by apply Hadd|].
  split; [intros o Ho; eexists; by apply Hadd|]. set (x := vf_int (ts_phi stT)).
  exists (TState (with_int (ts_phi stT) x) (Some x)).
  apply Hr. left. exists x. split; [|done]. exists x. split; [done|]. rewrite Hb. split; [done|].
  intros c Hc. rewrite Hres by done. simpl in Hc. destruct c as [|[|[|c]]]; [| | |lia]; apply Qc_is_canon; vm_compute; reflexivity.
Qed.

(** * C87: an integrator that is kept continues from its own copy of the solution:
    whatever state [st1] it is called with next (whose old-time field may have
    been changed), the step starts from the field the previous step produced;
    boundary data is never changed. *)
Theorem C87_continues_from_own_copy : forall cx n bcs d h eqn t dt dt1 st,
  setup_ok cx bcs -> state_ok cx st ->
  equation_wf h (nCells (cx_mesh cx)) eqn -> single_fields h eqn -> explicit_supported cx n (fun k => k) h eqn st ->
  get_string d "Runge-Kutta-Method" = Ok "Forward-Euler"%string -> dt <> 0%Qc -> dt1 <> 0%Qc ->
  exists e h' s h'' st', eval_equation eqn h = Ok (e, h') /\ surely (rungeKutta_solve cx n d None h' e t dt st) (s, h'', st') /\
  forall st1, state_ok cx st1 -> exists s2 h2 st2,
    surely (rungeKutta_solve cx n d (Some s) h'' e (t + dt)%Qc dt1 st1) (s2, h2, st2) /\
    (forall c, c < nCells (cx_mesh cx) -> at0 (vf_int (ts_phi st2)) c =
       (at0 (vf_int (ts_phi st')) c - dt1 * explicit_part cx n (fun k => k) h eqn st1 c)%Qc) /\
    ts_old st2 = Some (vf_int (ts_phi st2)) /\ boundary_kept st1 st2.
Proof.
  intros cx n bcs d h eqn t dt dt1 st Hset Hst Hwf Hsf Hsup Hkey Hdt Hdt1.
  destruct (eval_equation_spec (nCells (cx_mesh cx)) h eqn h (ext_refl h) Hwf) as [[_ Hok]|[Hn _]]; [|done].
  destruct Hok as (e & h1 & E & Hx & [ts ss] & HE & HM).
  assert (Hid : map (selected (fun k => k)) ss = ss) by (etransitivity; [|apply map_id]; apply map_ext; by intros []).
  assert (Hadd : forall st0 h' e', state_ok cx st0 -> isE h' e' (ts, ss) ->
    adds (nCells (cx_mesh cx)) (explicitOperation (at_state cx n st0) h' e') (explicit_part cx n (fun k => k) h eqn st0)).
  { intros st0 h' e' Hs0 He'. apply (equation_adds cx n (fun k => k) h eqn st0 h' e' ts ss (proj1 Hset)); [|by rewrite Hid|done].
    apply (supported_state cx n _ h eqn st); [apply Hs0|done]. }
  destruct (rk_first cx n d h1 e (ts, ss) t dt st (explicit_part cx n (fun k => k) h eqn st) Hst Hdt Hkey HE) as (e' & h2 & Hx2 & HE' & HS).
  { intros h' e' He'. by apply Hadd. }
  set (y := advanced cx (old_of st) (explicit_part cx n (fun k => k) h eqn st) dt) in *.
  exists e, h1, (RkState e' y (t + dt)%Qc), h2, (TState (with_int (ts_phi st) y) (Some y)). split; [done|]. split; [done|].
  intros st1 Hst1.
  assert (Hly : length y = nCells (cx_mesh cx)) by (apply advanced_length, Hst).
  pose proof (rk_step cx n d h2 e (RkState e' y (t + dt)%Qc) (t + dt)%Qc dt1 st1 (explicit_part cx n (fun k => k) h eqn st1) Hst1 Hly eq_refl Hdt1
    (Hadd st1 h2 e' Hst1 HE')) as A. simpl in A.
  eexists _, _, _. split; [exact A|]. simpl. split; [|done]. intros c Hc. by apply advanced_at.
Qed.
Print Assumptions C87_continues_from_own_copy.
Theorem C87_boundary_unchanged : forall cx n d self (h : heap Qc) e t dt st s h' st', dt <> 0%Qc ->
  rungeKutta_solve cx n d self h e t dt st (Ok (s, h', st')) -> boundary_kept st st'.
Proof.
  intros cx n d self h e t dt st s h' st' Hdt Hr. unfold rungeKutta_solve in Hr.
  destruct Hr as [([s1 h1] & _ & Hr)|[(? & _ & Hr)|[[_ Hr]|[_ Hr]]]]; try discriminate.
  destruct Hr as (sol & _ & Hr). destruct Hr as [(v & _ & Hr)|[(? & _ & Hr)|[[_ Hr]|[_ Hr]]]]; try discriminate.
  destruct Hr as [Hz|(y0 & _ & Hr)]; [done|]. destruct Hr as [(yd & _ & Hr)|[(? & _ & Hr)|[[_ Hr]|[_ Hr]]]]; try discriminate.
  destruct (decide _); [|discriminate].
  destruct Hr as [(i & _ & Hr)|[(? & _ & Hr)|[[_ Hr]|[_ Hr]]]]; try discriminate.
  destruct Hr as [(o & _ & Hr)|[(? & _ & Hr)|[[_ Hr]|[_ Hr]]]]; try discriminate.
  injection Hr as -> -> ->. done.
Qed.
Print Assumptions C87_boundary_unchanged.

(** Non-vacuity: a first step, then a step of the same integrator from a state
    changed in between. *)
Example C87_instance : exists e h' s h'' st' st1, eval_equation eqnT (heapU 1%Qc Explicit) = Ok (e, h') /\
  surely (rungeKutta_solve cx3 0 rkT None h' e 0%Qc 1%Qc stT) (s, h'', st') /\ state_ok cx3 st1 /\ ts_phi st1 <> ts_phi st' /\
  exists s2 h2 st2, rungeKutta_solve cx3 0 rkT (Some s) h'' e (0 + 1)%Qc 1%Qc st1 (Ok (s2, h2, st2)).
Proof.
  destruct (wfU 1%Qc Explicit) as (W & S & X & _).
  destruct (C87_continues_from_own_copy cx3 0 bcsT rkT (heapU 1%Qc Explicit) eqnT 0%Qc 1%Qc 1%Qc stT setupT stT_ok W S X eq_refl ltac:(discriminate) ltac:(discriminate))
    as (e & h' & s & h'' & st' & E & A & B).
  set (z := if decide (at0 (vf_int (ts_phi st')) 0 = 0%Qc) then 1%Qc else 0%Qc).
  set (st1 := TState (with_int (ts_phi stT) [z; 0; 0]%Qc) (Some [z; 0; 0]%Qc)).
  assert (Hst1 : state_ok cx3 st1) by (repeat split).
  exists e, h', s, h'', st', st1. split; [done|]. split; [done|]. split; [done|]. split.
  - intros Eq. apply (f_equal (fun p => at0 (vf_int p) 0)) in Eq. change (z = at0 (vf_int (ts_phi st')) 0) in Eq. unfold z in Eq.
    destruct (decide _) as [Hz|Hz]; [rewrite Hz in Eq; discriminate|by apply Hz].
  - destruct (B st1 Hst1) as (s2 & h2 & st2 & B1 & _). exists s2, h2, st2. by apply B1.
Qed.
