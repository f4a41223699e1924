(** C121: whole explicit runs give the same bits. *)
From Coq Require Import Reals.
From Verif Require Import Base Dict Registry Par ParProofs Exec ExecProofs Fields FieldsProofs Value Kernel Mesh MeshSpec MeshProofs Coeff FV FVSpec FVProofs FVAnyArith Properties_AnyArith Sparsity Assembly AssemblyProps Boundary BoundaryProofs Properties_Boundary Dsl DslSpec DslProofs Properties_Dsl TimeInt TimeIntProofs TimeIntSteps TimeAny TimeAnyProofs Properties_Float Properties_AssemblyAny.
Local Close Scope R_scope.
Local Open Scope nat_scope.

(** * The arithmetics in question. *)
Lemma rounding_exact {V} `{ValueLaws V} : rounding_arithmetic V.
Proof.
  split; unfold representable.
  - apply vadd_comm.
  - intros. apply vadd_0_l.
  - intros. apply vadd_0_l.
Qed.
Lemma rounding_float p : @rounding_arithmetic R (scalar_value p).
Proof.
  split; unfold representable, vadd, vzero, vscale, vneg, scalar_value.
  - intros a b. by rewrite Rplus_comm.
  - intros k x. rewrite Rplus_0_l. apply rnd_format, format_rnd.
  - intros x Hx. rewrite Rplus_0_l in *. apply rnd_format, format_opp. rewrite <- Hx. apply format_rnd.
Qed.

(** * On the serial executor *)
(** In any arithmetic: a run of any number of dsl::solve calls with the forward
    Euler integrator has exactly one result on the serial executor, whatever the
    uninitialised memory, in debug and release builds. *)
Theorem C121_serial : forall {V} `{ValueType V} `{ValueUnit V} `{ValueTag V} (cx : ctx V) n bcs fvSchemes e dts h phi old,
  setup_any cx bcs -> state_any cx phi old -> ops_ready cx n fvSchemes h (ex_spatial e) ->
  exists h' phi' old', state_any cx phi' old' /\ forall dbg r,
    time_loop_any dbg (on_executor SerialExecutor cx) n bcs fvSchemes e dts h phi old r <-> r = Ok (h', (phi', old')).
Proof.
  intros V VT VU VG cx n bcs d e dts h phi old Hset Hst Hr.
  destruct (loop_same cx n bcs Hset (fun x => x = SerialExecutor) SerialExecutor eq_refl (or_introl (fun x Hx => Hx)) d e dts h phi old Hst Hr)
    as (h' & phi' & old' & Hst' & _ & Hall).
  exists h', phi', old'. split; [done|]. intros dbg. exact (Hall dbg SerialExecutor eq_refl).
Qed.
Print Assumptions C121_serial.

(** * On every executor *)
(** If no cell has more than two faces: the same one result on every executor,
    under every schedule, in arithmetic that may round. *)
Theorem C121_two_faces : forall {V} `{ValueType V} `{ValueUnit V} `{ValueTag V} (cx : ctx V) n bcs fvSchemes e dts h phi old,
  rounding_arithmetic V -> (forall c, c < nCells (cx_mesh cx) -> faces_of_cell (cx_mesh cx) c <= 2) ->
  setup_any cx bcs -> state_any cx phi old -> ops_ready cx n fvSchemes h (ex_spatial e) ->
  exists h' phi' old', state_any cx phi' old' /\ forall ex dbg r,
    time_loop_any dbg (on_executor ex cx) n bcs fvSchemes e dts h phi old r <-> r = Ok (h', (phi', old')).
Proof.
  intros V VT VU VG cx n bcs d e dts h phi old HR H2 Hset Hst Hr.
  destruct (loop_same cx n bcs Hset (fun _ => True) SerialExecutor I (or_intror (conj HR H2)) d e dts h phi old Hst Hr)
    as (h' & phi' & old' & Hst' & _ & Hall).
  exists h', phi', old'. split; [done|]. intros ex dbg. exact (Hall dbg ex I).
Qed.
Print Assumptions C121_two_faces.

(** Whole runs on a uniform one-dimensional mesh, in float or double. *)
Theorem C121_one_dimension : forall p em nc ownJunk neiJunk m (VG : ValueTag R) (cx : ctx R) n bcs fvSchemes e dts h phi old,
  1 <= nc -> length ownJunk = nc + 1 -> length neiJunk = nc - 1 ->
  create1DUniformMesh em nc ownJunk neiJunk (Some m) -> cx_mesh cx = m ->
  setup_any cx bcs -> state_any cx phi old -> @ops_ready R (scalar_value p) cx n fvSchemes h (ex_spatial e) ->
  exists h' phi' old', state_any cx phi' old' /\ forall ex dbg r,
    @time_loop_any R (scalar_value p) VG dbg (on_executor ex cx) n bcs fvSchemes e dts h phi old r <-> r = Ok (h', (phi', old')).
Proof.
  intros p em nc oj nj m VG cx n bcs d e dts h phi old Hn Ho Hnj Hm Em Hset Hst Hr.
  destruct (create1D_spec em nc oj nj _ Hn Ho Hnj Hm) as (m' & [= <-] & HC & HI & HB & _ & Ht & _ & _ & _ & _ & _ & _ & _ & Hown & Hfc & _).
  apply (@C121_two_faces R (scalar_value p) (scalar_unit p) VG cx n bcs d e dts h phi old (rounding_float p)); try assumption.
  rewrite Em, HC. intros c Hc. apply (faces_1d nc); try assumption. intros f Hf. destruct (Hown f Hf) as (E1 & E2 & _). unfold atn.
  by rewrite E1, E2.
Qed.
Print Assumptions C121_one_dimension.

(** * What a step computes, in any arithmetic *)
Section any_step.
  Context {V : Type} {VT : ValueType V} {VU : ValueUnit V} {VG : ValueTag V}.
  Context (cx : ctx V) (n : nat) (bcs : list (patch * volBC V)) (Hset : setup_any cx bcs).
  Notation m := (cx_mesh cx).
  (** ends normally with a result of the size of the mesh *)
  Definition ends_sized (p : outcome (list V) -> Prop) : Prop :=
    (exists s, p (Ok s)) /\ forall r, p r -> exists s, r = Ok s /\ length s = nCells m.
  Lemma ends_junk (op : list V -> option (list V) -> Prop) (P : list V -> Prop) :
    (forall a, P a -> length a = nCells m) -> (forall junk, length junk = nFaces m -> every_outcome (op junk) P) ->
    ends_sized (fun r => exists junk, length junk = nFaces m /\ lift (op junk) r).
  Proof using VT.
    clear Hset. intros HP Hop. split.
    - destruct (Hop (replicate (nFaces m) vzero) ltac:(by rewrite replicate_length)) as (_ & (a & Ha) & _).
      exists a, (replicate (nFaces m) vzero). rewrite replicate_length. split; [done|]. by exists (Some a).
    - intros r (junk & Hj & o & Ho & ->). destruct (Hop junk Hj) as (Hn & _ & Hall). destruct o as [a|]; [|done].
      exists a. split; [done|]. apply HP. by apply Hall.
  Qed.
  Lemma op_ends o phi old source : state_any cx phi old -> op_fits cx n o -> built (so_kind o) -> length source = nCells m ->
    ends_sized (spatial_explicit (seen cx n phi old) o source).
  Proof using Hset.
    destruct Hset as (Hm & Hw & Hdc & Hmag & Hbd & Hpo).
    intros [Hsz Hlo] [Hk Hco] Hb Hs. destruct o as [k ty co]. unfold spatial_explicit. cbn [so_kind so_coeff] in *.
    destruct (HasExplicitOperator (class_of k)) eqn:Ehas.
    2:{ split; [by exists source|]. intros r ->. by exists source. }
    unfold concrete_explicit. cbn [so_kind so_coeff].
    assert (Hfld : forall q, (q <> n -> field_ok m (cx_vol cx q)) -> field_ok m (if decide (q = n) then phi else cx_vol cx q)).
    { intros q Hq. destruct (decide (q = n)); [|by apply Hq]. destruct Hsz as (A & B & _). by split. }
    destruct k as [flux q s|gamma q b|flux|coef q|u]; cbn in Hb, Hk; try contradiction.
    - destruct s as [s|]; [|done]. destruct Hk as [Hfl Hq].
      eapply (ends_junk (fun junk => div_explicitOperation (cx_exec cx) m (cx_surf cx flux) (if decide (q = n) then phi else cx_vol cx q) s (cx_weights cx) junk co source)).
      2:{ intros junk Hj. apply C96_div_any_order; try done. by apply Hfld. }
      intros a [Ha _]. done.
    - subst b. destruct Hk as [Hfl Hq].
      eapply (ends_junk (fun junk => laplacian_explicitOperation (cx_exec cx) m (cx_dc cx) (cx_surf cx gamma) (if decide (q = n) then phi else cx_vol cx q) junk co source)).
      2:{ intros junk Hj. apply C96_laplacian_any_order; try done. by apply Hfld. }
      intros a [Ha _]. done.
    - destruct Hk as [Hfl Hrep].
      destruct (C96_surfaceIntegrate_any_order m Hm (cx_exec cx) (cx_surfV cx flux) co source Hfl Hs Hco) as (Hn & (a & Ha) & Hall).
      split; [exists a, (Some a); done|]. intros r (o & Ho & ->). destruct o as [b|]; [|done]. exists b. split; [done|]. by apply Hall.
    - unfold HasExplicitOperator in Ehas. cbn in Ehas. discriminate.
  Qed.
  Lemma explicit_ends h phi old : state_any cx phi old -> forall l source, ops_fit cx n h l -> ops_built h l -> length source = nCells m ->
    ends_sized (run_explicit (seen cx n phi old) h l source).
  Proof using Hset.
    intros Hst. induction l as [|p l IH]; intros source Hf Hb Hs.
    - split; [by exists source|]. intros r ->. by exists source.
    - destruct (Hf p ltac:(by left)) as (o & Eo & Ho). pose proof (Hb p o ltac:(by left) Eo) as Hbo.
      assert (Hf' : ops_fit cx n h l) by (intros q Hq; apply Hf; by right).
      assert (Hb' : ops_built h l) by (intros q oq Hq; apply Hb; by right).
      cbn [run_explicit]. unfold ends_sized. rewrite Eo.
      destruct (decide (so_type o = Explicit)) as [Ht|Ht]; [|by apply IH].
      destruct (op_ends o phi old source Hst Ho Hbo Hs) as [(s1 & H1) Hall]. split.
      + destruct (Hall _ H1) as (s & [= <-] & Hl1). destruct (IH s1 Hf' Hb' Hl1) as [(s2 & H2) _]. exists s2. left. eauto.
      + intros r [(s & Hs1 & Hr)|[(x & Hx & _)|[[Hx _]|[Hx _]]]]; destruct (Hall _ Hx) || destruct (Hall _ Hs1) as (s' & [= <-] & Hl1).
        { by apply (IH s). }
        all: by destruct H.
  Qed.
End any_step.

(** On any mesh, executor and schedule a step ends normally, and each cell's new
    value is its old one minus the step length times the value of the explicit
    operators there: one multiplication and one subtraction of the arithmetic. *)
Theorem C121_step : forall {V} `{ValueType V} `{ValueUnit V} `{ValueTag V} dbg (cx : ctx V) n bcs h e dt phi old,
  setup_any cx bcs -> state_any cx phi old -> ops_fit cx n h (ex_spatial e) -> ops_built h (ex_spatial e) ->
  (exists r, forwardEuler_any dbg cx n bcs h e dt phi old r) /\
  forall r, forwardEuler_any dbg cx n bcs h e dt phi old r -> exists source phi' old',
    r = Ok (phi', old') /\ explicitOperation_n (seen cx n phi old) h e (nCells (cx_mesh cx)) (Ok source) /\
    length source = nCells (cx_mesh cx) /\ length (vf_int phi') = nCells (cx_mesh cx) /\
    (forall c, c < nCells (cx_mesh cx) -> atV (vf_int phi') c = vsub (atV old c) (vscale dt (atV source c))) /\
    old' = vf_int phi' /\
    always (vol_correctBoundaryConditions (cx_exec cx) (cx_mesh cx) bcs (with_int phi (vf_int phi'))) phi'.
Proof.
  intros V VT VU VG dbg cx n bcs h e dt phi old Hset Hst Hf Hb. pose proof Hst as [Hsz Hlo]. pose proof Hsz as (Hli & _).
  set (m := cx_mesh cx) in *.
  destruct (explicit_ends cx n bcs Hset h phi old Hst (ex_spatial e) (replicate (nCells m) vzero) Hf Hb) as [(s0 & Hs0) Hall];
    [by rewrite replicate_length|].
  fold m in Hall.
  assert (Hgo : forall src, length src = nCells m -> exists phi',
    vf_int phi' = zip_with vsub old (map (vscale dt) src) /\
    always (vol_correctBoundaryConditions (cx_exec cx) m bcs (with_int phi (vf_int phi'))) phi' /\
    surely (fun r => rseq (fop_any (scale_any (mkField (cx_exec cx) src) dt)) (fun sdt =>
      rseq (fop_any (minus_any dbg (mkField (cx_exec cx) old) (mkField (cx_exec cx) sdt))) (fun new =>
      rseq (fop_any (Fields.assign_field (mkField (cx_exec cx) (vf_int phi)) (mkField (cx_exec cx) new))) (fun int' =>
      rseq (lift (vol_correctBoundaryConditions (cx_exec cx) m bcs (with_int phi int'))) (fun phi' =>
      rseq (fop_any (Fields.assign_field (mkField (cx_exec cx) old) (mkField (cx_exec cx) (vf_int phi')))) (fun old' r' =>
        r' = Ok (phi', old')))))) r) (phi', vf_int phi')).
  { intros src Hls. set (new := zip_with vsub old (map (vscale dt) src)).
    destruct (correct_same cx bcs Hset bcs (with_int phi new)) as (phi' & Hsz' & Hint & Hbc).
    { apply Hset. }
    { destruct Hsz as (A & B & C & D & E). split; [|done]. cbn. unfold new. rewrite zip_with_length, map_length. fold m. lia. }
    cbn [vf_int with_int] in Hint.
    exists phi'. split; [done|]. split; [rewrite Hint; apply Hbc|]. intros r.
    rewrite (rseq_surely _ _ (map (vscale dt) src)) by apply fop_any_scale.
    rewrite (rseq_surely _ _ new) by (apply fop_any_minus; rewrite map_length; lia).
    rewrite (rseq_surely _ _ new) by apply fop_any_assign.
    rewrite (rseq_surely _ _ phi') by (apply surely_lift, Hbc).
    rewrite (rseq_surely _ _ (vf_int phi')); [done|]. apply fop_any_assign. }
  unfold forwardEuler_any, explicitOperation_n, explicitOperation. fold m. rewrite Hli. split.
  - destruct (Hall _ Hs0) as (s & [= <-] & Hl). destruct (Hgo s0 Hl) as (phi' & _ & _ & Hs). eexists. left. exists s0. split; [done|].
    by apply Hs.
  - intros r [(src & Hsrc & Hr)|[(x & Hx & _)|[[Hx _]|[Hx _]]]]; [|destruct (Hall _ Hx) as (? & ? & _); done..].
    destruct (Hall _ Hsrc) as (s & [= <-] & Hl). destruct (Hgo src Hl) as (phi' & Hint & Hbc & Hs).
    apply Hs in Hr. exists src, phi', (vf_int phi'). split; [done|]. split; [done|]. split; [done|].
    split; [rewrite Hint, zip_with_length, map_length; lia|]. split; [|by split].
    intros c Hc. rewrite Hint. unfold atV. rewrite lookup_zip_with, (list_lookup_fmap (vscale dt) src).
    destruct (lookup_lt_is_Some_2 old c) as [x ->]; [lia|]. destruct (lookup_lt_is_Some_2 src c) as [y ->]; [lia|]. done.
Qed.
Print Assumptions C121_step.

(** * With exact scalars these are the integrator and dsl::solve of TimeInt.v *)
Definition as_state (r : outcome (volField Qc * list Qc)) : outcome tstate :=
  match r with Ok (phi, old) => Ok (TState phi (Some old)) | Throw x => Throw x | Exit => Exit | UB => UB end.
Lemma rseq_map {A B C} (p : outcome A -> Prop) (k : A -> outcome B -> Prop) (k' : A -> outcome C -> Prop) (conv : outcome B -> outcome C) :
  (forall x, conv (Throw x) = Throw x) -> conv Exit = Exit -> conv UB = UB ->
  (forall a r', k' a r' <-> exists r, k a r /\ r' = conv r) ->
  forall r', rseq p k' r' <-> exists r, rseq p k r /\ r' = conv r.
Proof.
  intros Ct Ce Cu Hk r'. unfold rseq. split.
  - intros [(a & Ha & H)|[(x & Hx & ->)|[[Hx ->]|[Hx ->]]]].
    + apply Hk in H as (r & H & ->). eauto 6.
    + exists (Throw x). split; [|done]. eauto.
    + exists Exit. rewrite Ce. tauto.
    + exists UB. rewrite Cu. tauto.
  - intros (r & [(a & Ha & H)|[(x & Hx & ->)|[[Hx ->]|[Hx ->]]]] & ->).
    + left. exists a. split; [done|]. apply Hk. eauto.
    + right. left. exists x. by rewrite Ct.
    + rewrite Ce. tauto.
    + rewrite Cu. tauto.
Qed.
Lemma rseq_left {A B} (p q : outcome A -> Prop) (k : A -> outcome B -> Prop) r : (forall x, p x <-> q x) -> rseq p k r <-> rseq q k r.
Proof. intros E. unfold rseq. by setoid_rewrite E. Qed.

Theorem C121_exact_integrator : forall dbg cx n bcs h e dt st r,
  forwardEuler_solve dbg cx n bcs h e dt st r <->
  exists r0, forwardEuler_any dbg cx n bcs h e dt (ts_phi st) (old_of st) r0 /\ r = as_state r0.
Proof.
  intros dbg cx n bcs h e dt st r. unfold forwardEuler_solve, forwardEuler_any.
  change (seen cx n (ts_phi st) (old_of st)) with (at_state cx n st).
  revert r. apply (rseq_map _ _ _ as_state); try done. intros source r. cbv zeta.
  rewrite (rseq_surely _ _ (map (fun x => x * dt)%Qc source)) by apply fop_scale.
  assert (E : map (fun x => x * dt)%Qc source = map (vscale dt) source) by (apply map_ext; intros x; cbn; ring).
  rewrite E.
  setoid_rewrite (rseq_surely (fop_any (scale_any (mkField (cx_exec cx) source) dt)) _ (map (vscale dt) source)); [|apply fop_any_scale].
  revert r. apply (rseq_map _ _ _ as_state); try done. intros new r.
  revert r. apply (rseq_map _ _ _ as_state); try done. intros int' r.
  revert r. apply (rseq_map _ _ _ as_state); try done. intros phi' r.
  revert r. apply (rseq_map _ _ _ as_state); try done. intros old' r. split.
  - intros ->. eauto.
  - intros (r0 & -> & ->). done.
Qed.
Print Assumptions C121_exact_integrator.

Definition as_state_h (r : outcome (heap Qc * (volField Qc * list Qc))) : outcome (heap Qc * tstate) :=
  match r with Ok (h, (phi, old)) => Ok (h, TState phi (Some old)) | Throw x => Throw x | Exit => Exit | UB => UB end.
Theorem C121_exact_solve : forall dbg cx n bcs lin fvSchemes fvSolution schemes h e t dt st r,
  ex_temporal e <> [] -> dict_subDict fvSchemes "ddtSchemes" = Ok schemes -> get_string schemes "type" = Ok "forwardEuler"%string ->
  dsl_solve dbg cx n bcs lin fvSchemes fvSolution h e t dt st r <->
  exists r0, dsl_solve_any dbg cx n bcs fvSchemes h e dt (ts_phi st) (old_of st) r0 /\ r = as_state_h r0.
Proof.
  intros dbg cx n bcs lin fvSchemes fvSolution schemes h e t dt st r Ht Hsub Hty. unfold dsl_solve, dsl_solve_any.
  destruct (ex_temporal e) as [|tp tl] eqn:Ete; [done|].
  change (seen cx n (ts_phi st) (old_of st)) with (at_state cx n st).
  revert r. apply (rseq_map _ _ _ as_state_h); try done. intros [[] h'] r.
  rewrite (rseq_surely _ _ schemes) by (intros r'; rewrite Hsub; reflexivity).
  unfold timeIntegration_solve. rewrite Hty.
  assert (checked known_integrator (Ok "forwardEuler"%string) = Ok "forwardEuler"%string) as -> by reflexivity.
  rewrite decide_True by done.
  rewrite (rseq_left _ _ _ _ (C121_exact_integrator dbg cx n bcs h' e dt st)). unfold rseq. split.
  - intros [(a & ([[phi old]|x| |] & Ha & E) & ->)|[(x & ([[phi old]|y| |] & Ha & E) & ->)|[[([[phi old]|y| |] & Ha & E) ->]|[([[phi old]|y| |] & Ha & E) ->]]]]; try discriminate E.
    + injection E as ->. exists (Ok (h', (phi, old))). split; [|done]. left. eauto.
    + injection E as ->. exists (Throw y). split; [|done]. eauto.
    + exists Exit. tauto.
    + exists UB. tauto.
  - intros (r0 & [([phi old] & Ha & ->)|[(x & Ha & ->)|[[Ha ->]|[Ha ->]]]] & ->).
    + left. exists (TState phi (Some old)). split; [|done]. by exists (Ok (phi, old)).
    + right. left. exists x. split; [|done]. by exists (Throw x).
    + right. right. left. split; [|done]. by exists Exit.
    + right. right. right. split; [|done]. by exists UB.
Qed.
Print Assumptions C121_exact_solve.

(** * A case: div(flux, phi) with upwind and a laplacian on three cells in a row,
    in float and double, any step lengths. *)
Definition schemesR : dict :=
  [("ddtSchemes", ADict [("type", AString "forwardEuler")]);
   ("divSchemes", ADict [("div(flux,phi)", ATokens [AString "Gauss"; AString "upwind"] 0)]);
   ("laplacianSchemes", ADict [("laplacian(gamma,phi)", ATokens [AString "Gauss"; AString "linear"; AString "uncorrected"] 0)])]%string.
Definition heapR : heap R :=
  Heap [SpatialOp (DivOperator 0 0 None) Explicit coeff_default; SpatialOp (LaplacianOperator 1 0 false) Explicit (coeff_scalar (- (1))%Qc)]
       [TemporalOp 0 Implicit coeff_default].
Definition cxR (m : mesh) : ctx R :=
  Ctx CPUExecutor m (replicate 4 (Q2Qc (1 # 3))) (replicate 4 (Q2Qc 3)) (Sparsity [] [] [] [] []) (fun _ => [1; 1; -(1); 1]%Qc) (fun _ => replicate 4 0%R)
      (fun _ => VolField (replicate 3 0%R) (replicate 2 0%R) [] [] []) (fun _ => []) (fun _ => [])
      (fun i => if decide (i = 0) then "flux"%string else "gamma"%string) (fun _ => "phi"%string).
Definition bcsR : list (patch * volBC R) := [(Patch 0 0 1, FixedValue 1%R); (Patch 1 1 2, FixedGradient 0%R)].
Definition phiR (x : R) : volField R := VolField [x; 0; 2]%R [1; 0]%R [1; 0]%R [1; 0]%Qc [0; 0]%R.
Example C121_instance : forall p dts (x : R), exists m,
  create1DUniformMesh CPUExecutor 3 (replicate 4 0) (replicate 2 0) (Some m) /\
  setup_any (cxR m) bcsR /\ state_any (cxR m) (phiR x) [x; 0; 2]%R /\ @ops_ready R (scalar_value p) (cxR m) 0 schemesR heapR [0; 1] /\
  exists h' phi' old', forall ex dbg r,
    @time_loop_any R (scalar_value p) VScalar dbg (on_executor ex (cxR m)) 0 bcsR schemesR (Expression [0] [0; 1]) dts heapR (phiR x) [x; 0; 2]%R r <-> r = Ok (h', (phi', old')).
Proof.
  intros p dts x.
  destruct (create1D_defined CPUExecutor 3 (replicate 4 0) (replicate 2 0)) as (m & Hm); [lia|done|done|].
  destruct (create1D_spec CPUExecutor 3 (replicate 4 0) (replicate 2 0) (Some m) ltac:(lia) ltac:(done) ltac:(done) Hm)
    as (m' & [= <-] & HC & HI & HB & _ & Ht & Hg & Hvb & _).
  pose proof (vt_faces _ Ht) as HF. rewrite HI, HB in HF. simpl in HF.
  assert (H1 : setup_any (cxR m) bcsR).
  { split; [done|]. cbn [cxR cx_weights cx_dc cx_mesh]. rewrite HF. split; [done|]. split; [done|].
    split; [rewrite <- HF; apply (vg_mag_len _ Hg)|]. split; [apply (vb_len _ Hvb _ eq_refl)|].
    repeat constructor; unfold patch_ok; rewrite HB; cbn; lia. }
  assert (H2 : state_any (cxR m) (phiR x) [x; 0; 2]%R).
  { split; [|cbn [cxR cx_mesh]; by rewrite HC]. unfold sized. cbn [cxR cx_mesh]. rewrite HC, HB. done. }
  assert (H3 : @ops_ready R (scalar_value p) (cxR m) 0 schemesR heapR [0; 1]).
  { intros q Hq. apply elem_of_cons in Hq as [->|Hq%elem_of_list_singleton]; [|subst q].
    - eexists. split; [reflexivity|]. split; [split; [split; [cbn [cxR cx_surf cx_mesh]; by rewrite HF|done]|done]|].
      eexists. reflexivity.
    - eexists. split; [reflexivity|]. split; [split; [split; [cbn [cxR cx_surf cx_mesh]; by rewrite HF|done]|done]|].
      eexists. reflexivity. }
  exists m. split; [done|]. split; [done|]. split; [done|]. split; [done|].
  destruct (C121_one_dimension p CPUExecutor 3 (replicate 4 0) (replicate 2 0) m VScalar (cxR m) 0 bcsR schemesR (Expression [0] [0; 1]) dts heapR (phiR x) [x; 0; 2]%R)
    as (h' & phi' & old' & _ & H); try done; [lia|]. exists h', phi', old'. exact H.
Qed.
