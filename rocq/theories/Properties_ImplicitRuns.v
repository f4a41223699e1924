(** C125: whole implicit runs give the same bits. *)
From Coq Require Import Reals.
From Verif Require Import Base Dict Registry Par ParProofs Exec ExecProofs Fields FieldsProofs Value Kernel Mesh MeshSpec MeshProofs Coeff FV FVSpec FVProofs FVAnyArith Properties_AnyArith Sparsity SparsitySpec SparsityMain SparsityProps SparsityProofs SparsityDet Properties_Sparsity Assembly AssemblySpec AssemblyProps Boundary BoundaryProofs Properties_Boundary Dsl DslSpec DslProofs Properties_Dsl TimeInt TimeIntProofs TimeIntSteps TimeAny TimeAnyProofs Properties_Float Rod Properties_Rod Properties_AssemblyAny Properties_Reproducible ImplicitAny ImplicitAnyProofs.
Local Close Scope R_scope.
Local Open Scope nat_scope.

(** * One outcome *)
(** In any arithmetic, on any mesh: a run of any number of dsl::solve calls - with
    the backward or forward Euler integrator, or without a time derivative - has
    exactly one outcome on the serial executor, the same in debug and release
    builds, provided the linear solver gives one answer per system.  It is never
    undefined behaviour, and a normal end leaves fields of the right sizes. *)
Theorem C125_serial : forall {V} `{ValueType V} `{ValueUnit V} `{ValueTag V} (cx : ctx V) n bcs lin fvSchemes fvSolution e dts h phi old,
  setup_any cx bcs -> pattern_rows (cx_mesh cx) (cx_pattern cx) -> pattern_located (cx_mesh cx) (cx_pattern cx) ->
  one_answer cx lin -> (ex_temporal e <> [] -> not_runge_kutta fvSchemes) -> program_ready cx n fvSchemes h e -> kept_ok cx phi old ->
  exists o, (forall dbg r, solve_loop_any dbg (on_executor SerialExecutor cx) n bcs lin fvSchemes fvSolution e dts h phi old r <-> r = o) /\
    o <> UB /\ forall h' phi' old', o = Ok (h', (phi', old')) -> program_ready cx n fvSchemes h' e /\ kept_ok cx phi' old'.
Proof.
  intros V VT VU VG cx n bcs lin d sol e dts h phi old Hset Hp Hpl Hlin Hrk Hr Hk.
  destruct (solve_loop_single cx n bcs lin Hset Hp Hpl Hlin false ltac:(done) d sol e ltac:(done) Hrk dts h phi old Hr Hk) as (o & Ho & HP).
  exists o. split; [done|]. split; [by destruct o|]. intros h' phi' old' ->. exact HP.
Qed.
Print Assumptions C125_serial.

(** If no linear solve fails and the dictionaries name the linear solver and - for
    an equation with a time derivative - the backward or forward Euler integrator,
    the run ends normally, with the one result. *)
Theorem C125_ends : forall {V} `{ValueType V} `{ValueUnit V} `{ValueTag V} (cx : ctx V) n bcs lin fvSchemes fvSolution e dts h phi old,
  setup_any cx bcs -> pattern_rows (cx_mesh cx) (cx_pattern cx) -> pattern_located (cx_mesh cx) (cx_pattern cx) ->
  one_answer cx lin -> always_answers lin -> well_named fvSchemes fvSolution e -> program_ready cx n fvSchemes h e -> kept_ok cx phi old ->
  exists h' phi' old', (forall dbg r, solve_loop_any dbg (on_executor SerialExecutor cx) n bcs lin fvSchemes fvSolution e dts h phi old r <-> r = Ok (h', (phi', old'))) /\
    program_ready cx n fvSchemes h' e /\ kept_ok cx phi' old'.
Proof.
  intros V VT VU VG cx n bcs lin d sol e dts h phi old Hset Hp Hpl Hlin Hans Hwn Hr Hk.
  assert (Hrk : ex_temporal e <> [] -> not_runge_kutta d).
  { intros Het sd Hsd. unfold well_named in Hwn. destruct (ex_temporal e) eqn:Et; [done|]. destruct Hwn as [(sd' & name & E & E2 & Hin) _]. rewrite Hsd in E. injection E as <-.
    rewrite E2. intros [= ->]. apply elem_of_cons in Hin as [?|Hin]; [done|]. by apply elem_of_list_singleton in Hin. }
  destruct (solve_loop_single cx n bcs lin Hset Hp Hpl Hlin true (fun _ => Hans) d sol e (fun _ => Hwn) Hrk dts h phi old Hr Hk) as (o & Ho & HP).
  destruct o as [[h' [phi' old']]|x| |]; try done. exists h', phi', old'. split; [done|]. exact HP.
Qed.
Print Assumptions C125_ends.

(** * What a backward Euler step does, in any arithmetic and on any executor *)
(** After a step that ends normally the cell values are those the linear solver
    returned for a system on a pattern constructed for the mesh, started from the
    previous values; the old-time field holds them too; boundary data are as before
    (the integrator does not correct them). *)
Theorem C125_step : forall {V} `{ValueType V} `{ValueUnit V} `{ValueTag V} (cx : ctx V) n lin solutionDict h e dt phi old phi' old',
  backwardEuler_any cx n lin solutionDict h e dt phi old (Ok (phi', old')) ->
  exists name q values rhs, solver_create solutionDict = Ok name /\ sp_create (cx_exec cx) (cx_mesh cx) (Ok q) /\
    lin name solutionDict q values rhs (vf_int phi) (Ok (vf_int phi')) /\ old' = vf_int phi' /\
    vf_value phi' = vf_value phi /\ vf_refValue phi' = vf_refValue phi /\
    vf_valueFraction phi' = vf_valueFraction phi /\ vf_refGrad phi' = vf_refGrad phi.
Proof.
  intros V VT VU VG cx n lin sd h e dt phi old phi' old' H. unfold backwardEuler_any in H.
  assert (Hok : forall {A B} (p : outcome A -> Prop) (k : A -> outcome B -> Prop) b, rseq p k (Ok b) -> exists a, p (Ok a) /\ k a (Ok b)).
  { intros A B p k b [?|[(x & _ & ?)|[[_ ?]|[_ ?]]]]; done. }
  apply Hok in H as (s & _ & H). apply Hok in H as (q & Hq & H). apply Hok in H as (ls1 & _ & H). apply Hok in H as (ls2 & _ & H).
  apply Hok in H as (x & Hx & H). apply Hok in H as (o & Ho & H). injection H as -> ->.
  apply fop_any_assign in Ho. injection Ho as ->. unfold solver_solve_any in Hx.
  destruct (solver_create sd) as [name|y| |]; try done. destruct ls2 as [|values [|rhs [|? ?]]]; try done.
  exists name, q, values, rhs. done.
Qed.
Print Assumptions C125_step.

(** * With exact scalars this is dsl::solve of TimeInt.v *)
Definition as_kept (r : outcome (heap Qc * (volField Qc * option (list Qc)))) : outcome (heap Qc * tstate) :=
  match r with Ok (h, (phi, old)) => Ok (h, TState phi old) | Throw x => Throw x | Exit => Exit | UB => UB end.
Lemma exact_backward cx n lin sd h e dt st r :
  backwardEuler_solve cx n lin sd h e dt st r <->
  exists r0, backwardEuler_any cx n lin sd h e dt (ts_phi st) (old_of st) r0 /\ r = as_state r0.
Proof.
  unfold backwardEuler_solve, backwardEuler_any.
  change (seen cx n (ts_phi st) (old_of st)) with (at_state cx n st).
  revert r. apply (rseq_map _ _ _ as_state); try done. intros source r. cbv zeta.
  revert r. apply (rseq_map _ _ _ as_state); try done. intros fresh r.
  revert r. apply (rseq_map _ _ _ as_state); try done. intros ls1 r.
  revert r. apply (rseq_map _ _ _ as_state); try done. intros ls2 r.
  revert r. apply (rseq_map _ _ _ as_state); try done. intros x r.
  revert r. apply (rseq_map _ _ _ as_state); try done. intros old' r. split.
  - intros ->. eauto.
  - intros (r0 & -> & ->). done.
Qed.
Lemma pack_map (p : outcome tstate -> Prop) (q : outcome (volField Qc * list Qc) -> Prop) h :
  (forall r, p r <-> exists r0, q r0 /\ r = as_state r0) -> forall r,
  rseq p (fun st' r' => r' = Ok (h, st')) r <->
  exists r0, rseq q (fun s r' => r' = Ok (h, (s.1, Some s.2))) r0 /\ r = as_kept r0.
Proof.
  intros Hp r. rewrite (rseq_left _ _ _ _ Hp). unfold rseq. split.
  - intros [(a & ([[phi old]|x| |] & Ha & E) & ->)|[(x & ([[phi old]|y| |] & Ha & E) & ->)|[[([[phi old]|y| |] & Ha & E) ->]|[([[phi old]|y| |] & Ha & E) ->]]]]; try discriminate E.
    + injection E as ->. exists (Ok (h, (phi, Some old))). split; [|done]. left. exists (phi, old). done.
    + injection E as ->. exists (Throw y). split; [|done]. eauto.
    + exists Exit. tauto.
    + exists UB. tauto.
  - intros (r0 & [([phi old] & Ha & ->)|[(x & Ha & ->)|[[Ha ->]|[Ha ->]]]] & ->).
    + left. exists (TState phi (Some old)). split; [|done]. by exists (Ok (phi, old)).
    + right. left. exists x. split; [|done]. by exists (Throw x).
    + right. right. left. split; [|done]. by exists Exit.
    + right. right. right. split; [|done]. by exists UB.
Qed.
(** A failure of the first call is the failure of the sequence. *)
Definition same_failure {A B} (o : outcome A) (o' : outcome B) : Prop :=
  match o, o' with Throw x, Throw y => x = y | Exit, Exit => True | UB, UB => True | _, _ => False end.
Lemma rseq_stops {A B} (o : outcome A) (o' : outcome B) (k : A -> outcome B -> Prop) r : same_failure o o' ->
  rseq (fun r' => r' = o) k r <-> r = o'.
Proof.
  intros H. unfold rseq. split.
  - intros [(a & Ha & _)|[(x & Hx & ->)|[[Hx ->]|[Hx ->]]]]; [by subst o|..]; subst o; destruct o'; try done; by cbn in H; subst.
  - intros ->. destruct o as [a|x| |], o' as [b|y| |]; try done; cbn in H; try subst; eauto 6.
Qed.
Theorem C125_exact : forall dbg cx n bcs lin fvSchemes fvSolution h e t dt st r,
  (ex_temporal e <> [] -> not_runge_kutta fvSchemes) ->
  dsl_solve dbg cx n bcs lin fvSchemes fvSolution h e t dt st r <->
  exists r0, solve_any dbg cx n bcs lin fvSchemes fvSolution e dt h (ts_phi st) (ts_old st) r0 /\ r = as_kept r0.
Proof.
  intros dbg cx n bcs lin d sol h e t dt st r Hrk. unfold dsl_solve, solve_any.
  change (default (vf_int (ts_phi st)) (ts_old st)) with (old_of st).
  change (seen cx n (ts_phi st) (old_of st)) with (at_state cx n st).
  assert (Hfail : forall o, r = as_kept o <-> exists r0, r0 = o /\ r = as_kept r0) by (intros o; split; [by eauto|by intros (? & -> & ->)]).
  destruct (ex_temporal e) as [|tp tl] eqn:Ete.
  - destruct (ex_spatial e) as [|sp sl]; [exact (Hfail Exit)|].
    revert r Hfail. intros r _. revert r. apply (rseq_map _ _ _ as_kept); try done. intros [[] h'] r.
    revert r. apply (rseq_map _ _ _ as_kept); try done. intros fresh r.
    revert r. apply (rseq_map _ _ _ as_kept); try done. intros ls r.
    revert r. apply (rseq_map _ _ _ as_kept); try done. intros x r. split.
    + intros ->. by eexists.
    + by intros (? & -> & ->).
  - assert (Hgo : forall r, rseq (fun r' => r' = expr_build (at_state cx n st) d e h) (fun '(_, h') =>
        rseq (fun r' => r' = dict_subDict d "ddtSchemes") (fun sd => timeIntegration_solve dbg cx n bcs lin sd d h' e t dt st)) r <->
      exists r0, rseq (fun r' => r' = expr_build (at_state cx n st) d e h) (fun '(_, h') =>
        rseq (fun r' => r' = dict_subDict d "ddtSchemes") (fun sd => integrate_any dbg cx n bcs lin sd d h' e dt (ts_phi st) (old_of st))) r0 /\ r = as_kept r0).
    { clear r Hfail. apply (rseq_map _ _ _ as_kept); try done. intros [[] h'] r.
      assert (Hsd : forall sd, dict_subDict d "ddtSchemes" = Ok sd ->
        (timeIntegration_solve dbg cx n bcs lin sd d h' e t dt st r <-> exists r0, integrate_any dbg cx n bcs lin sd d h' e dt (ts_phi st) (old_of st) r0 /\ r = as_kept r0)).
      { intros sd Hsd. unfold timeIntegration_solve, integrate_any. pose proof (Hrk ltac:(first [done|by rewrite Ete]) sd Hsd) as Hty.
        destruct (checked known_integrator (get_string sd "type")) as [name|x| |] eqn:Ec.
        - destruct (decide (name = "forwardEuler"%string)) as [_|N1]; [apply pack_map; intros r'; apply C121_exact_integrator|].
          destruct (decide (name = "backwardEuler"%string)) as [_|N2]; [apply pack_map; intros r'; apply exact_backward|].
          exfalso. unfold checked in Ec. destruct (get_string sd "type") as [k|x| |]; cbn -[decide known_integrator] in Ec; try done.
          destruct (decide (k ∈ known_integrator)) as [Hin|]; [|done]. injection Ec as ->.
          unfold known_integrator in Hin. repeat (apply elem_of_cons in Hin as [->|Hin]; [done|]). by apply elem_of_nil in Hin.
        - split; [intros ->; by exists (Throw x)|by intros (? & -> & ->)].
        - split; [intros ->; by exists Exit|by intros (? & -> & ->)].
        - split; [intros ->; by exists UB|by intros (? & -> & ->)]. }
      destruct (dict_subDict d "ddtSchemes") as [sd|x| |].
      - rewrite rseq_surely by (intros r'; reflexivity). rewrite (Hsd sd eq_refl).
        split; intros (r0 & Hr0 & ->); exists r0; (split; [|done]).
        + by rewrite rseq_surely by (intros r'; reflexivity).
        + by rewrite rseq_surely in Hr0 by (intros r'; reflexivity).
      - rewrite (rseq_stops (Throw x) (Throw x)) by done. split.
        + intros ->. exists (Throw x). split; [by apply (rseq_stops (Throw x) (Throw x))|done].
        + intros (r0 & Hr0 & ->). apply (rseq_stops (Throw x) (Throw x)) in Hr0; [by subst r0|done].
      - rewrite (rseq_stops Exit Exit) by done. split.
        + intros ->. exists Exit. split; [by apply (rseq_stops Exit Exit)|done].
        + intros (r0 & Hr0 & ->). apply (rseq_stops Exit Exit) in Hr0; [by subst r0|done].
      - rewrite (rseq_stops UB UB) by done. split.
        + intros ->. exists UB. split; [by apply (rseq_stops UB UB)|done].
        + intros (r0 & Hr0 & ->). apply (rseq_stops UB UB) in Hr0; [by subst r0|done]. }
    destruct (ex_spatial e); apply Hgo.
Qed.
Print Assumptions C125_exact.


From Verif Require Properties_TimeInt.
(** Likewise a whole run: the next call starts from what the previous one kept. *)
Theorem C125_exact_loop : forall dbg cx n bcs lin fvSchemes fvSolution e l h st r,
  (ex_temporal e <> [] -> not_runge_kutta fvSchemes) ->
  Properties_TimeInt.time_loop dbg cx n bcs lin fvSchemes fvSolution e l h st r <->
  exists r0, solve_loop_any dbg cx n bcs lin fvSchemes fvSolution e (l.*2) h (ts_phi st) (ts_old st) r0 /\ r = as_kept r0.
Proof.
  intros dbg cx n bcs lin d sol e l h st r Hrk. revert h st r. induction l as [|[t dt] l IH]; intros h [phi old] r.
  - cbn. split; [intros ->; by eexists|by intros (? & -> & ->)].
  - cbn [Properties_TimeInt.time_loop fmap list_fmap solve_loop_any snd ts_phi ts_old].
    rewrite (rseq_left _ _ _ _ (fun x => C125_exact dbg cx n bcs lin d sol h e t dt (TState phi old) x Hrk)). cbn [ts_phi ts_old]. unfold rseq. split.
    + intros [([h1 st1] & ([[h2 [phi2 old2]]|x| |] & Ha & E) & H)|[(x & ([[h2 [phi2 old2]]|y| |] & Ha & E) & ->)|[[([[h2 [phi2 old2]]|y| |] & Ha & E) ->]|[([[h2 [phi2 old2]]|y| |] & Ha & E) ->]]]]; try discriminate E.
      * injection E as -> ->. apply IH in H as (r0 & H & ->). exists r0. split; [|done]. left. exists (h2, (phi2, old2)). done.
      * injection E as ->. exists (Throw y). split; [|done]. eauto.
      * exists Exit. tauto.
      * exists UB. tauto.
    + intros (r0 & [([h2 [phi2 old2]] & Ha & H)|[(x & Ha & ->)|[[Ha ->]|[Ha ->]]]] & ->).
      * left. exists (h2, TState phi2 old2). split; [by exists (Ok (h2, (phi2, old2)))|]. apply IH. by exists r0.
      * right. left. exists x. split; [|done]. by exists (Throw x).
      * right. right. left. split; [|done]. by exists Exit.
      * right. right. right. split; [|done]. by exists UB.
Qed.
Print Assumptions C125_exact_loop.

(** * A case: implicit upwind convection and implicit diffusion with backward Euler
    on three cells in a row, in float and double, any step lengths. *)
Definition schemesI : dict :=
  [("ddtSchemes", ADict [("type", AString "backwardEuler")]); ("solver", AString "Ginkgo");
   ("divSchemes", ADict [("div(flux,phi)", ATokens [AString "Gauss"; AString "upwind"] 0)]);
   ("laplacianSchemes", ADict [("laplacian(gamma,phi)", ATokens [AString "Gauss"; AString "linear"; AString "uncorrected"] 0)])]%string.
Definition heapI : heap R :=
  Heap [SpatialOp (DivOperator 0 0 None) Implicit coeff_default; SpatialOp (LaplacianOperator 1 0 false) Implicit (coeff_scalar (- (1))%Qc)]
       [TemporalOp 0 Implicit coeff_default].
Definition cxI (m : mesh) (q : sparsity) : ctx R :=
  Ctx CPUExecutor m (replicate 4 (Q2Qc (1 # 3))) (replicate 4 (Q2Qc 3)) q (fun _ => [1; 1; -(1); 1]%Qc) (fun _ => replicate 4 0%R)
      (fun _ => VolField (replicate 3 0%R) (replicate 2 0%R) [] [] []) (fun _ => []) (fun _ => [])
      (fun i => if decide (i = 0) then "flux"%string else "gamma"%string) (fun _ => "phi"%string).
(** A linear solver: one step from the starting value. *)
Definition linI (p : precision) (_ : string) (_ : dict) (_ : sparsity) (_ rhs x0 : list R) (r : outcome (list R)) : Prop :=
  r = Ok (zip_with (@vadd R (scalar_value p)) x0 rhs).
Example C125_instance : forall p dts (x : R), exists m q,
  create1DUniformMesh CPUExecutor 3 (replicate 4 0) (replicate 2 0) (Some m) /\ sp_create SerialExecutor m (Ok q) /\
  setup_any (cxI m q) bcsR /\ pattern_rows m q /\ pattern_located m q /\ one_answer (cxI m q) (linI p) /\ always_answers (linI p) /\
  well_named schemesI [] (Expression [0] [0; 1]) /\ @program_ready R (scalar_value p) (cxI m q) 0 schemesI heapI (Expression [0] [0; 1]) /\
  kept_ok (cxI m q) (phiR x) None /\
  exists h' phi' old', forall dbg r,
    @solve_loop_any R (scalar_value p) (scalar_unit p) VScalar dbg (on_executor SerialExecutor (cxI m q)) 0 bcsR (linI p) schemesI [] (Expression [0] [0; 1]) dts heapI (phiR x) None r <->
    r = Ok (h', (phi', old')).
Proof.
  intros p dts x.
  destruct (create1D_defined CPUExecutor 3 (replicate 4 0) (replicate 2 0)) as (m & Hm); [lia|done|done|].
  destruct (create1D_spec CPUExecutor 3 (replicate 4 0) (replicate 2 0) (Some m) ltac:(lia) ltac:(done) ltac:(done) Hm)
    as (m' & [= <-] & HC & HI & HB & _ & Ht & Hg & Hvb & _).
  pose proof (vt_faces _ Ht) as HF. rewrite HI, HB in HF. simpl in HF.
  assert (Hq : exists q, sp_create SerialExecutor m (Ok q) /\ pattern_rows m q /\ pattern_located m q).
  { assert (Hfit : rows_fit m) by (apply (Properties_Rod.rod_fit 3), (Rod.rod_of CPUExecutor 3 (replicate 4 0) (replicate 2 0)); [lia|done|done|done]).
    destruct (C29_pattern m SerialExecutor (valid_connectivity _ Ht) Hfit) as [(q & Hq) Hall].
    destruct (Hall _ Hq) as (q' & [= <-] & A & B). by exists q. }
  destruct Hq as (q & Hq & Hrows & Hloc).
  assert (H1 : setup_any (cxI m q) bcsR).
  { split; [done|]. cbn [cxI cx_weights cx_dc cx_mesh]. rewrite HF. split; [done|]. split; [done|].
    split; [rewrite <- HF; apply (vg_mag_len _ Hg)|]. split; [apply (vb_len _ Hvb _ eq_refl)|].
    repeat constructor; unfold patch_ok; rewrite HB; cbn; lia. }
  assert (H2 : kept_ok (cxI m q) (phiR x) None).
  { split; [|done]. unfold sized. cbn [cxI cx_mesh]. rewrite HC, HB. done. }
  assert (H3 : @program_ready R (scalar_value p) (cxI m q) 0 schemesI heapI (Expression [0] [0; 1])).
  { split.
    - intros o Ho. cbn [ex_spatial] in Ho. apply elem_of_cons in Ho as [->|Ho%elem_of_list_singleton]; [|subst o].
      + eexists. split; [reflexivity|]. split; [split; [split; [cbn [cxI cx_surf cx_mesh]; by rewrite HF|done]|done]|].
        split; [done|]. eexists. reflexivity.
      + eexists. split; [reflexivity|]. split; [split; [split; [cbn [cxI cx_surf cx_mesh]; by rewrite HF|done]|done]|].
        split; [done|]. eexists. reflexivity.
    - intros o Ho. cbn [ex_temporal] in Ho. apply elem_of_list_singleton in Ho. subst o. eexists. split; [reflexivity|]. done. }
  assert (H4 : one_answer (cxI m q) (linI p)).
  { intros name d q' values rhs x0 _ Hr Hx. eexists. split; [intros r; unfold linI; reflexivity|]. cbn in *. rewrite zip_with_length. lia. }
  assert (H5 : always_answers (linI p)) by (intros name d q' values rhs x0 r ->; eauto).
  assert (H6 : well_named schemesI [] (Expression [0] [0; 1])).
  { split; [exists [("type", AString "backwardEuler")]%string, "backwardEuler"%string|exists "Ginkgo"%string]; repeat split; try reflexivity; set_solver. }
  exists m, q. repeat (split; [done|]).
  destruct (@C125_ends R (scalar_value p) (scalar_unit p) VScalar (cxI m q) 0 bcsR (linI p) schemesI [] (Expression [0] [0; 1]) dts heapI (phiR x) None)
    as (h' & phi' & old' & H & _); try done. by exists h', phi', old'.
Qed.
