(** C124: a run of explicit upwind transport in float or double stays close to the
    run of the same program in exact arithmetic. *)
From Coq Require Import Reals Lra Psatz.
From Flocq Require Import Core.
From Verif Require Import Base Dict Registry Par Exec ExecProofs Fields FieldsProofs Value Kernel Mesh MeshSpec MeshProofs Coeff FV FVSpec FVProofs FVAnyArith Properties_AnyArith Properties_FV Sparsity Assembly AssemblyProps Boundary BoundaryProofs Properties_Boundary Dsl DslSpec DslProofs Properties_Dsl TimeInt TimeIntProofs TimeIntSteps FrontEnd Transport Properties_CoNum TimeAny TimeAnyProofs
  Properties_Float Properties_AssemblyAny FloatFaces FloatTotal Properties_FloatFaces Properties_Reproducible DslAssembly DslHeapProofs Properties_DslAssembly FloatRun.
Local Open Scope R_scope.

(** * One dsl::solve of the program, in any arithmetic *)
Section any_solve.
  Context {V : Type} {VT : ValueType V} {VU : ValueUnit V} {VG : ValueTag V}.
  Context (cx : ctx V) (n : nat) (bcs : list (patch * volBC V)) (fvSchemes : dict) (flux q : nat).
  Context (Hvt : vtag (V := V) = VScalar).
  Notation m := (cx_mesh cx).
  Definition has_div (h : heap V) : Prop := exists s, h_spatial h !! q = Some (SpatialOp (DivOperator flux n s) Explicit (coeff_scalar 1%Qc)).
  Context (Hset : setup_any cx bcs) (Hdj : pairwise_disjoint bcs) (Hfl : length (cx_surf cx flux) = nFaces m)
          (Hdiv : exists s, (div_build (cx_surfName cx flux) (cx_volName cx n) (IDict fvSchemes)).1 = Ok (s, "upwind"%string)).

  Lemma build_step phi old e h : ex_spatial e = [q] -> has_div h ->
    exists h', expr_build (seen cx n phi old) fvSchemes e h = Ok (tt, h') /\
      h_spatial h' !! q = Some (SpatialOp (DivOperator flux n (Some Upwind)) Explicit (coeff_scalar 1%Qc)).
  Proof using Hdiv.
    intros Ee [s Hs]. destruct Hdiv as [s1 Hd]. unfold expr_build. rewrite Ee. cbn [buildS]. unfold bind, readS. rewrite Hs.
    unfold op_build. cbn [so_kind so_type so_coeff cx_surfName cx_volName seen]. rewrite Hd. cbv beta iota.
    eexists. split; [reflexivity|]. cbn [h_spatial]. rewrite list_lookup_insert by (by apply lookup_lt_Some in Hs). done.
  Qed.

  (** What the boundary values are after a step. *)
  Definition corrected (phi' : volField V) : Prop := forall b p bc, (b < nBoundaryFaces m)%nat -> (p, bc) ∈ bcs -> in_patch p b ->
    match bc with
    | FixedValue v => vf_value phi' !! b = Some v
    | FixedGradient g => vf_value phi' !! b = Some (vadd (atV (vf_int phi') (atn (bFaceCells (bmesh m)) b)) (vscale (1 / at0 (bDeltaCoeffs (bmesh m)) b)%Qc g))
    | Extrapolated => vf_value phi' !! b = Some (atV (vf_int phi') (atn (bFaceCells (bmesh m)) b))
    | _ => True
    end.

  Lemma solve_step dbg h e dt phi old : state_any cx phi old -> ex_spatial e = [q] -> has_div h ->
    (exists r, dsl_solve_any dbg cx n bcs fvSchemes h e dt phi old r) /\
    forall r, dsl_solve_any dbg cx n bcs fvSchemes h e dt phi old r -> exists h' source phi' old' junk,
      r = Ok (h', (phi', old')) /\ has_div h' /\ state_any cx phi' old' /\ length junk = nFaces m /\
      div_explicitOperation (cx_exec cx) m (cx_surf cx flux) phi Upwind (cx_weights cx) junk (coeff_scalar 1%Qc) (replicate (nCells m) vzero) (Some source) /\
      (forall c, (c < nCells m)%nat -> atV (vf_int phi') c = vsub (atV old c) (vscale dt (atV source c))) /\
      old' = vf_int phi' /\ corrected phi'.
  Proof using Hset Hdj Hfl Hdiv Hvt VU.
    intros Hst Ee Hh. destruct (build_step phi old e h Ee Hh) as (h' & Eb & Eh).
    assert (Hfit : op_fits cx n (SpatialOp (DivOperator flux n (Some Upwind)) Explicit (coeff_scalar 1%Qc))).
    { split; cbn; [split; [done|]; intros []; done|done]. }
    assert (Hf : ops_fit cx n h' (ex_spatial e)).
    { intros p0 Hp0. rewrite Ee in Hp0. apply elem_of_list_singleton in Hp0 as ->. eauto. }
    assert (Hb : ops_built h' (ex_spatial e)).
    { intros p0 o Hp0. rewrite Ee in Hp0. apply elem_of_list_singleton in Hp0 as ->. rewrite Eh. by intros [= <-]. }
    destruct (C121_step dbg cx n bcs h' e dt phi old Hset Hst Hf Hb) as [[r1 Hr1] Hall].
    split.
    - destruct (Hall r1 Hr1) as (source & phi' & old' & -> & _). exists (Ok (h', (phi', old'))). unfold dsl_solve_any. left. exists (tt, h').
      split; [done|]. left. exists (phi', old'). done.
    - intros r [([[] h2] & E2 & Hr)|[(x & Hx & _)|[[Hx _]|[Hx _]]]]; rewrite Eb in *; try done. injection E2 as ->.
      destruct Hr as [(s & Hs & ->)|[(x & Hx & ->)|[[Hx ->]|[Hx ->]]]].
      2-4: destruct (Hall _ Hx) as (? & ? & ? & ? & _); done.
      destruct (Hall _ Hs) as (source & phi' & old' & [= ->] & Hex & Hls & Hli & Hval & -> & Hcor).
      unfold explicitOperation_n, explicitOperation in Hex. rewrite Ee in Hex. cbn [run_explicit] in Hex. rewrite Eh in Hex.
      cbn [so_type] in Hex. rewrite decide_True in Hex by done.
      destruct Hex as [(s1 & Hs1 & [= ->])|[(x & Hx & [=])|[[Hx [=]]|[Hx [=]]]]].
      unfold spatial_explicit in Hs1. cbn [so_kind class_of] in Hs1. rewrite Hvt in Hs1. unfold HasExplicitOperator in Hs1. cbn [cl_fieldValueType cl_explicit] in Hs1. try rewrite bool_decide_true in Hs1 by done. unfold concrete_explicit in Hs1. cbn [so_kind so_coeff] in Hs1.
      destruct Hs1 as (junk & Hj & o & Ho & Eo). destruct o as [s2|]; [|done]. injection Eo as ->.
      cbn [cx_mesh cx_exec cx_surf cx_weights cx_vol seen] in *. rewrite decide_True in Ho by done.
      exists h', s2, phi', (vf_int phi'), junk.
      destruct Hset as (Hm & _ & _ & _ & Hbd & Hpo). destruct Hst as [(A & B & C & D & E) Hlo].
      destruct (C43_volume_all (cx_mesh cx) (cx_exec cx) bcs (with_int phi (vf_int phi')) Hm Hbd Hpo Hdj) as (phi2 & H2 & I2 & P2 & _ & Hsz2).
      { split; [done|]. done. }
      assert (phi2 = phi') as -> by (pose proof (proj2 (H2 (Some phi2)) eq_refl) as X; apply Hcor in X; by injection X).
      split; [done|]. split; [by exists (Some Upwind)|]. split; [by split|]. split; [done|]. split; [done|]. split; [done|]. split; [done|].
      intros b p bc Hb1 Hin Hpb.
      pose proof (fun x => P2 p bc (Value b) x Hin) as HP. cbn [vol_prescribes read] in HP. rewrite decide_True in HP by done.
      unfold at_face_cell in HP. cbn [vf_int with_int] in HP.
      assert (Hrd : forall x, inl (B := Qc) <$> vf_value phi' !! b = Some (inl x) -> vf_value phi' !! b = Some x).
      { intros x. destruct (vf_value phi' !! b); cbn; congruence. }
      destruct bc; try done; apply Hrd, HP; done.
  Qed.
End any_solve.

(** * Rates of change *)
Section rates.
  Context (p : precision) (cx : ctx R) (n : nat) (bcs : list (patch * volBC R)) (flux : nat) (M0 : R).
  Notation m := (cx_mesh cx).
  Notation F := (fun f => QcR (at0 (cx_surf cx flux) f)).
  Context (Hm : valid_topology m) (Hw : boundary_weights_1 m (cx_weights cx)) (Hco : float_conditions p m (cx_surf cx flux) M0 bcs).
  (** Face values and net outflow per volume. *)
  Definition upf (phi : volField R) (f : nat) : R := @face_value R real_value m Upwind phi (cx_surf cx flux) (cx_weights cx) f.
  Definition rate (phi : volField R) (c : nat) : R :=
    QcR (1 / at0 (cellVolumes m) c)%Qc * @cell_balance R real_value m (fun f => F f * upf phi f) c.

  Lemma rate_spec phi c : @div_spec R real_value m Upwind (cx_surf cx flux) (cx_weights cx) phi (coeff_scalar 1%Qc) c = rate phi c.
  Proof using. clear. done. Qed.
  Lemma upf_owner phi f : (f < nInternalFaces m)%nat -> 0 < F f -> upf phi f = value_at (vf_int phi) (atn (faceOwner m) f).
  Proof using.
    clear. intros Hf HF. unfold upf, face_value. rewrite decide_True by done. destruct (Qclt_le_dec _ 0) as [H|]; [|done].
    apply QcR_neg_lt in H. lra.
  Qed.
  Lemma upf_neighbour phi f : (f < nInternalFaces m)%nat -> F f < 0 -> upf phi f = value_at (vf_int phi) (atn (faceNeighbour m) f).
  Proof using.
    clear. intros Hf HF. unfold upf, face_value. rewrite decide_True by done. destruct (Qclt_le_dec _ 0) as [|H]; [done|].
    apply QcR_le in H. rewrite QcR_0 in H. lra.
  Qed.
  Lemma upf_boundary phi b : (b < nBoundaryFaces m)%nat -> upf phi (nInternalFaces m + b)%nat = value_at (vf_value phi) b.
  Proof using Hw Hm.
    clear Hco. intros Hb. unfold upf, face_value. rewrite decide_False by lia. rewrite Hw by (pose proof (vt_faces _ Hm); lia).
    replace (nInternalFaces m + b - nInternalFaces m)%nat with b by lia. unfold vscale, real_value. rewrite QcR_1. ring.
  Qed.
  Lemma boundary_cases phi b : conditions_met m bcs phi -> (b < nBoundaryFaces m)%nat ->
    (exists v, F (nInternalFaces m + b)%nat <= 0 /\ scalar_format p v /\ Rabs v <= M0 /\
       forall psi, conditions_met m bcs psi -> value_at (vf_value psi) b = v) \/
    (forall psi, conditions_met m bcs psi -> value_at (vf_value psi) b = value_at (vf_int psi) (atn (bFaceCells (bmesh m)) b)).
  Proof using Hco.
    clear - Hco. intros Hmet Hb. destruct (Hco b Hb) as (q & bc & Hin & Hp & Hbc). destruct bc as [v|g| | |]; try done.
    - left. destruct Hbc as (H1 & H2 & H3). exists v. split; [apply QcR_le in H1; rewrite QcR_0 in H1; done|]. split; [done|]. split; [done|].
      intros psi Hpsi. exact (Hpsi b q _ Hb Hin Hp).
    - right. intros psi Hpsi. exact (Hpsi b q _ Hb Hin Hp).
    - right. intros psi Hpsi. exact (Hpsi b q _ Hb Hin Hp).
  Qed.

  Context (Hdf : divergence_free m (cx_surf cx flux)).
  (** A step does not leave the range of the values, *)
  Lemma rate_bounded dt phi M c : M0 <= M -> conditions_met m bcs phi -> (forall i, Rabs (value_at (vf_int phi) i) <= M) ->
    (c < nCells m)%nat -> (0 < dt)%Qc -> (cell_courant m (cx_surf cx flux) dt c <= 1)%Qc ->
    Rabs (value_at (vf_int phi) c - QcR dt * rate phi c) <= M.
  Proof using Hm Hw Hco Hdf.
    intros HM Hmet Hall Hc Hdt Hcou. unfold rate. apply cell_stable; try done.
    - intros f Hf <-. split; intros H; [by apply upf_owner|]. rewrite upf_neighbour; [apply Hall|done|done].
    - intros f Hf <-. split; intros H; [by apply upf_neighbour|]. rewrite upf_owner; [apply Hall|done|done].
    - intros b Hb <-. rewrite upf_boundary by done. destruct (boundary_cases phi b Hmet Hb) as [(v & H1 & _ & H3 & H4)|H4]; rewrite (H4 phi Hmet).
      + split; intros H; lra.
      + split; intros H; [done|apply Hall].
  Qed.
  (** nor does it move two fields apart. *)
  Lemma rate_contracts dt phi psi d c : 0 <= d -> conditions_met m bcs phi -> conditions_met m bcs psi ->
    (forall i, Rabs (value_at (vf_int phi) i - value_at (vf_int psi) i) <= d) ->
    (c < nCells m)%nat -> (0 < dt)%Qc -> (cell_courant m (cx_surf cx flux) dt c <= 1)%Qc ->
    Rabs (value_at (vf_int phi) c - QcR dt * rate phi c - (value_at (vf_int psi) c - QcR dt * rate psi c)) <= d.
  Proof using Hm Hw Hco Hdf.
    intros Hd Hmet Hmet' Hall Hc Hdt Hcou.
    assert (E : value_at (vf_int phi) c - QcR dt * rate phi c - (value_at (vf_int psi) c - QcR dt * rate psi c)
      = (value_at (vf_int phi) c - value_at (vf_int psi) c) - QcR dt * (QcR (1 / at0 (cellVolumes m) c)%Qc *
          @cell_balance R real_value m (fun f => F f * (upf phi f - upf psi f)) c)).
    { unfold rate. rewrite !signed_balance. unfold sumav, signed. rewrite !map_app, !sumR_app, !map_map. cbn [fst snd].
      assert (L : forall g l (h1 h2 : nat -> R), sumR (map (fun f => g f * (h1 f - h2 f)) l) = sumR (map (fun f => g f * h1 f) l) - sumR (map (fun f => g f * h2 f) l)).
      { intros g l h1 h2. induction l; cbn; [lra|]. unfold sumR in *. rewrite IHl. ring. }
      rewrite (L F), (L (fun f => - F f)).
      rewrite (L (fun b => F (nInternalFaces m + b)%nat) _ (fun b => upf phi (nInternalFaces m + b)%nat) (fun b => upf psi (nInternalFaces m + b)%nat)). ring. }
    rewrite E. apply cell_stable; try done.
    - intros f Hf <-. split; intros H; [by rewrite !upf_owner|]. rewrite !upf_neighbour by done. apply Hall.
    - intros f Hf <-. split; intros H; [by rewrite !upf_neighbour|]. rewrite !upf_owner by done. apply Hall.
    - intros b Hb <-. rewrite !upf_boundary by done. destruct (boundary_cases phi b Hmet Hb) as [(v & H1 & _ & H3 & H4)|H4]; rewrite (H4 phi Hmet), (H4 psi Hmet').
      + split; intros H; [lra|]. replace (v - v) with 0 by ring. by rewrite Rabs_R0.
      + split; intros H; [done|apply Hall].
  Qed.
End rates.

(** * Steps *)
Section steps.
  Context (p : precision) (cx : ctx R) (n : nat) (bcs : list (patch * volBC R)) (fvSchemes : dict) (flux q : nat) (M0 : R).
  Notation m := (cx_mesh cx).
  Notation rate := (rate cx flux).
  Notation value := (@atV R real_value).
  Context (phi0 : volField R) (old0 : list R) (Hcase : float_case p cx bcs fvSchemes flux n M0 phi0 old0).
  Context (e : expression) (Ee : ex_spatial e = [q]).

  (** States of the two runs. *)
  Record good (phi : volField R) (old : list R) : Prop := {
    g_state : state_any cx phi old;
    g_old : old = vf_int phi;
    g_met : conditions_met m bcs phi;
  }.
  Definition formats (phi : volField R) : Prop := forall c, (c < nCells m)%nat -> scalar_format p (value (vf_int phi) c).

  Lemma everywhere l (P : R -> Prop) : length l = nCells m -> P 0 -> (forall c, (c < nCells m)%nat -> P (value l c)) -> forall i, P (value l i).
  Proof using.
    clear. intros Hl H0 H i. destruct (decide (i < nCells m)%nat) as [Hi|Hi]; [by apply H|].
    unfold atV. rewrite lookup_ge_None_2 by lia. exact H0.
  Qed.
  Lemma everywhere2 l l' (P : R -> R -> Prop) : length l = nCells m -> length l' = nCells m -> P 0 0 ->
    (forall c, (c < nCells m)%nat -> P (value l c) (value l' c)) -> forall i, P (value l i) (value l' i).
  Proof using.
    clear. intros Hl Hl' H0 H i. destruct (decide (i < nCells m)%nat) as [Hi|Hi]; [by apply H|].
    unfold atV. rewrite !lookup_ge_None_2 by lia. exact H0.
  Qed.

  Lemma exact_step ex dbg h dt phi old : good phi old -> has_div n flux q h ->
    (exists r, @dsl_solve_any R real_value scalar_tag dbg (on_executor ex cx) n bcs fvSchemes h e dt phi old r) /\
    forall r, @dsl_solve_any R real_value scalar_tag dbg (on_executor ex cx) n bcs fvSchemes h e dt phi old r -> exists h' phi' old',
      r = Ok (h', (phi', old')) /\ has_div n flux q h' /\ good phi' old' /\
      forall c, (c < nCells m)%nat -> value (vf_int phi') c = value (vf_int phi) c - QcR dt * rate phi c.
  Proof using Hcase Ee.
    intros [Hst -> Hmet] Hh. destruct Hcase as [Hset Hdj _ _ Hfl Hfs Hw Hw1 Hdiv _ _ Hco _]. pose proof Hset as (Hm & Hwl & _).
    destruct (@solve_step R real_value (scalar_unit p) scalar_tag (on_executor ex cx) n bcs fvSchemes flux q eq_refl Hset Hdj Hfl Hdiv
      dbg h e dt phi (vf_int phi) Hst Ee Hh) as [Hex Hall]. split; [done|].
    intros r Hr. destruct (Hall r Hr) as (h' & source & phi' & old' & junk & -> & Hh' & Hst' & Hj & Hdv & Hv & -> & Hcor).
    exists h', phi', (vf_int phi'). split; [done|]. split; [done|].
    pose proof Hst as [(Li & Lv & _) _]. pose proof Hst' as [(Li' & Lv' & _) _].
    split; [split; [done|done|]|].
    - intros b q0 bc Hb Hin Hp. pose proof (Hcor b q0 bc Hb Hin Hp) as C.
      destruct (Hco b Hb) as (q1 & bc1 & Hin1 & Hp1 & Hbc1).
      assert (bc = bc1) as <-.
      { apply elem_of_list_lookup in Hin as [i Hi]. apply elem_of_list_lookup in Hin1 as [j Hj1].
        destruct (decide (i = j)) as [->|Hne]; [congruence|]. exfalso. by apply (Hdj i j _ _ Hi Hj1 Hne b). }
      assert (Hval : forall x, vf_value phi' !! b = Some x -> value (vf_value phi') b = x) by (intros x Hx; unfold atV; by rewrite Hx).
      destruct bc as [v|g| | |]; try done; try by apply Hval.
      rewrite (Hval _ C). subst g. unfold vadd, vscale, real_value. fold real_value. cbn. ring.
    - intros c Hc. rewrite Hv by done.
      pose proof (proj1 (@C32_explicit_div R real_value real_laws m Hm ex Upwind phi (cx_surf cx flux) (cx_weights cx) junk (replicate (nCells m) 0) (coeff_scalar 1%Qc)
        (conj Li Lv) Hfl Hwl Hj ltac:(by rewrite replicate_length) I (Some source)) Hdv) as Es.
      injection Es as ->.
      assert (Hsrc : forall g : nat -> R, value (map g (seq 0 (nCells m))) c = g c).
      { intros g. unfold atV. change (map g) with (fmap (M := list) g). rewrite list_lookup_fmap, lookup_seq_lt by done. done. }
      match goal with |- context [value (map ?g (seq 0 ?k)) c] => assert (Hs2 : value (map g (seq 0 k)) c = value (replicate (nCells m) 0) c + rate phi c)
        by (etransitivity; [apply (Hsrc g)|reflexivity]); rewrite Hs2; clear Hs2 end.
      assert (value (replicate (nCells m) 0) c = 0) as -> by (unfold atV; by rewrite lookup_replicate_2 by done).
      generalize (rate phi c) (value (vf_int phi) c). intros a b. unfold vsub, vadd, vneg, vscale, real_value. ring.
  Qed.

  Lemma float_step ex dbg h dt phi old M : good phi old -> formats phi -> has_div n flux q h -> M0 <= M ->
    (forall c, (c < nCells m)%nat -> Rabs (value (vf_int phi) c) <= M) -> float_steps p cx flux [dt] ->
    (exists r, @dsl_solve_any R (scalar_value p) scalar_tag dbg (on_executor ex cx) n bcs fvSchemes h e dt phi old r) /\
    forall r, @dsl_solve_any R (scalar_value p) scalar_tag dbg (on_executor ex cx) n bcs fvSchemes h e dt phi old r -> exists h' phi' old',
      r = Ok (h', (phi', old')) /\ has_div n flux q h' /\ good phi' old' /\ formats phi' /\
      forall c, (c < nCells m)%nat -> Rabs (value (vf_int phi') c - (value (vf_int phi) c - QcR dt * rate phi c)) <= cell_defect p m (cx_surf cx flux) dt M c.
  Proof using Hcase Ee.
    intros [Hst -> Hmet] Hfo Hh HM HbM Hdts. destruct Hcase as [Hset Hdj _ _ Hfl Hfs Hw Hw1 Hdiv Hdf _ Hco _]. pose proof Hset as (Hm & Hwl & _).
    destruct (@solve_step R (scalar_value p) (scalar_unit p) scalar_tag (on_executor ex cx) n bcs fvSchemes flux q eq_refl Hset Hdj Hfl Hdiv
      dbg h e dt phi (vf_int phi) Hst Ee Hh) as [Hex Hall]. split; [done|].
    intros r Hr. destruct (Hall r Hr) as (h' & source & phi' & old' & junk & -> & Hh' & Hst' & Hj & Hdv & Hv & -> & Hcor).
    exists h', phi', (vf_int phi'). split; [done|]. split; [done|].
    pose proof Hst as [(Li & Lv & _) _]. pose proof Hst' as [(Li' & Lv' & _) _].
    assert (Hnew : forall c, (c < nCells m)%nat -> value (vf_int phi') c = rnd p (value (vf_int phi) c + - rnd p (rnd p (QcR dt) * value source c))).
    { intros c Hc. exact (Hv c Hc). }
    assert (Hfo' : formats phi') by (intros c Hc; rewrite Hnew by done; apply format_rnd).
    split; [split; [done|done|]|split; [done|]].
    - intros b q0 bc Hb Hin Hp. pose proof (Hcor b q0 bc Hb Hin Hp) as C.
      destruct (Hco b Hb) as (q1 & bc1 & Hin1 & Hp1 & Hbc1).
      assert (bc = bc1) as <-.
      { apply elem_of_list_lookup in Hin as [i Hi]. apply elem_of_list_lookup in Hin1 as [j Hj1].
        destruct (decide (i = j)) as [->|Hne]; [congruence|]. exfalso. by apply (Hdj i j _ _ Hi Hj1 Hne b). }
      assert (Hval : forall x, vf_value phi' !! b = Some x -> value (vf_value phi') b = x) by (intros x Hx; unfold atV; by rewrite Hx).
      destruct bc as [v|g| | |]; try done; try by apply Hval.
      rewrite (Hval _ C). subst g. cbn [cx_mesh on_executor].
      assert (Hx : scalar_format p (value (vf_int phi') (atn (bFaceCells (bmesh m)) b))).
      { apply (everywhere (vf_int phi') (scalar_format p)); [done|apply format_0|done]. }
      unfold vadd, vscale, scalar_value. rewrite Rmult_0_r, rnd_0, Rplus_0_r. by apply rnd_format.
    - intros c Hc. rewrite Hnew by done. destruct (Hdts dt ltac:(by left)) as (Hdt & Fdt & Hcou). pose proof (Hcou c Hc) as Hcouc.
      rewrite (rnd_format p (QcR dt) Fdt).
      set (s := value source c). set (S := rate phi c). set (x := value (vf_int phi) c).
      set (B := total_bound p 4 (length (faces_around m c)) 0 (QcR (1 / at0 (cellVolumes m) c)%Qc)
        (M * sum_around m c (fun f => Rabs (QcR (at0 (cx_surf cx flux) f))))
        (sum_around m c (fun f => (2 * (1 + u p) ^ 2 * Rabs (QcR (at0 (cx_surf cx flux) f)) + 1) * eta p))).
      pose proof (u_pos p) as Hu. pose proof (eta_pos p) as He. pose proof (QcR_pos _ Hdt) as Hdp.
      assert (Hx0 : 0 <= M) by (pose proof (HbM c Hc); pose proof (Rabs_pos (value (vf_int phi) c)); lra).
      assert (HbMa : forall i, Rabs (value (vf_int phi) i) <= M).
      { apply (everywhere (vf_int phi) (fun z => Rabs z <= M)); [done|rewrite Rabs_R0; done|done]. }
      assert (Hfc : forall f, (f < nFaces m)%nat -> @face_value R real_value m Upwind (magnitudes phi) (cx_surf cx flux) (cx_weights cx) f <= M).
      { intros f Hf. destruct (decide (f < nInternalFaces m)%nat) as [Hi|Hi].
        - unfold face_value. rewrite decide_True by done. unfold at_owner, at_neighbour, magnitudes. cbn [vf_int]. rewrite !atV_abs.
          destruct (Qclt_le_dec _ 0); apply HbMa.
        - pose proof (vt_faces _ Hm). pose proof (upf_boundary cx flux Hm Hw1 (magnitudes phi) (f - nInternalFaces m)%nat ltac:(lia)) as E.
          replace (nInternalFaces m + (f - nInternalFaces m))%nat with f in E by lia. unfold upf in E. rewrite E. unfold magnitudes. cbn [vf_value].
          rewrite atV_abs.
          destruct (boundary_cases p cx bcs flux M0 Hco phi (f - nInternalFaces m)%nat Hmet ltac:(lia)) as [(v & _ & _ & H3 & H4)|H4]; rewrite (H4 phi Hmet); [lra|apply HbMa]. }
      assert (HB : Rabs (s - S) <= B).
      { destruct (C115_div_total p m Hm ex Upwind phi (cx_surf cx flux) (cx_weights cx) junk (coeff_scalar 1%Qc) (replicate (nCells m) 0)
          (conj Li Lv) Hfl Hwl Hj ltac:(by rewrite replicate_length) I Hfs Hw) as (_ & _ & HT).
        { apply Forall_forall. intros z Hz. apply elem_of_list_In, repeat_spec in Hz || apply elem_of_replicate in Hz as [-> _]. apply format_0. }
        destruct (HT source Hdv) as [_ HT2]. specialize (HT2 c Hc). rewrite lookup_replicate_2 in HT2 by done. cbn [default] in HT2.
        rewrite (rate_spec cx flux) in HT2. rewrite Rplus_0_l in HT2. fold S in HT2. change (default 0 (source !! c)) with s in HT2.
        eapply Rle_trans; [exact HT2|]. unfold B, total_bound.
        change (coeff_val (coeff_scalar 1%Qc) c / at0 (cellVolumes m) c)%Qc with (1 / at0 (cellVolumes m) c)%Qc.
        set (T := sum_around m c _). set (T' := M * _). set (E := sum_around m c (fun f => (_ + 1) * _)).
        assert (HTT : T <= T').
        { unfold T, T', sum_around. rewrite <- (Rplus_0_l (M * _)).
          apply Rle_trans with (sumR (map (fun f => M * Rabs (QcR (at0 (cx_surf cx flux) f)) + 0 * 0) (faces_around m c))).
          - apply sumR_le. intros f Hf%in_around; [|done]. pose proof (Hfc f Hf). pose proof (Rabs_pos (QcR (at0 (cx_surf cx flux) f))). nra.
          - rewrite (sumR_lin _ (fun f => Rabs (QcR (at0 (cx_surf cx flux) f))) (fun _ => 0)). lra. }
        set (k := Rabs (QcR (1 / at0 (cellVolumes m) c)%Qc)). assert (Hk : 0 <= k) by apply Rabs_pos.
        assert (P1 : 1 <= (1 + u p) ^ (length (faces_around m c) + 4 + 3)) by (apply pow_R1_Rle; lra).
        assert (P2 : 1 <= (1 + u p) ^ (length (faces_around m c) + 2)) by (apply pow_R1_Rle; lra).
        assert (P3 : 1 <= (1 + u p) ^ 4) by (apply pow_R1_Rle; lra).
        apply Rplus_le_compat_r. apply Rplus_le_compat; [apply Rplus_le_compat_r, Rplus_le_compat_l|].
        - apply Rmult_le_compat_l; [lra|]. by apply Rmult_le_compat_l.
        - apply Rmult_le_compat_l; [lra|]. apply Rmult_le_compat_r; [lra|]. apply Rplus_le_compat_r. apply Rmult_le_compat_l; [lra|done]. }
      pose proof (rate_bounded p cx bcs flux M0 Hm Hw1 Hco Hdf dt phi M c HM Hmet HbMa Hc Hdt Hcouc) as HY. fold S x in HY.
      assert (Hxx : Rabs x <= M) by apply HbMa.
      assert (HdS : Rabs (QcR dt * S) <= 2 * M).
      { replace (QcR dt * S) with (x - (x - QcR dt * S)) by ring. pose proof (Rabs_triang x (- (x - QcR dt * S))). rewrite Rabs_Ropp in *. unfold Rminus at 1. lra. }
      assert (HBp : 0 <= B) by (pose proof (Rabs_pos (s - S)); lra).
      assert (Hds : Rabs (QcR dt * s) <= 2 * M + QcR dt * B).
      { replace (QcR dt * s) with (QcR dt * S + QcR dt * (s - S)) by ring. pose proof (Rabs_triang (QcR dt * S) (QcR dt * (s - S))) as T.
        rewrite (Rabs_mult _ (s - S)), (Rabs_right (QcR dt)) in T by lra. pose proof (Rmult_le_compat_l (QcR dt) _ _ ltac:(lra) HB). lra. }
      set (pr := rnd p (QcR dt * s)). pose proof (rnd_err p (QcR dt * s)) as E1. fold pr in E1.
      set (D := (1 + u p) * (QcR dt * B) + 2 * u p * M + eta p).
      assert (HD : Rabs (pr - QcR dt * S) <= D).
      { replace (pr - QcR dt * S) with ((pr - QcR dt * s) + QcR dt * (s - S)) by ring.
        pose proof (Rabs_triang (pr - QcR dt * s) (QcR dt * (s - S))) as T. rewrite (Rabs_mult _ (s - S)), (Rabs_right (QcR dt)) in T by lra.
        pose proof (Rmult_le_compat_l (QcR dt) _ _ ltac:(lra) HB). pose proof (Rmult_le_compat_l (u p) _ _ ltac:(lra) Hds). unfold D. lra. }
      pose proof (rnd_add p x (- pr) ltac:(by apply Hfo) ltac:(apply format_opp, format_rnd)) as E2.
      assert (Hxp : Rabs (x + - pr) <= M + D).
      { replace (x + - pr) with ((x - QcR dt * S) + - (pr - QcR dt * S)) by ring.
        pose proof (Rabs_triang (x - QcR dt * S) (- (pr - QcR dt * S))). rewrite Rabs_Ropp in *. lra. }
      change (cell_defect p m (cx_surf cx flux) dt M c) with (u p * M + (1 + u p) * D).
      replace (rnd p (x + - pr) - (x - QcR dt * S)) with ((rnd p (x + - pr) - (x + - pr)) + - (pr - QcR dt * S)) by ring.
      pose proof (Rabs_triang (rnd p (x + - pr) - (x + - pr)) (- (pr - QcR dt * S))) as T. rewrite Rabs_Ropp in T.
      pose proof (Rmult_le_compat_l (u p) _ _ ltac:(lra) Hxp). lra.
  Qed.
End steps.

(** * Runs *)
Lemma program_upwind n flux : exists h, program (V := R) [ImpDdt n; ExpDiv flux n] (EOpPlus (TermT (TVar 0)) (TermS (SVar 0))) = Ok (Expression [2%nat] [2%nat], h) /\ has_div n flux 2 h.
Proof.
  rewrite program_spec. eexists. split; [cbn; reflexivity|]. exists None. cbn. reflexivity.
Qed.

Section runs.
  Context (p : precision) (cx : ctx R) (n : nat) (bcs : list (patch * volBC R)) (fvSchemes : dict) (flux q : nat) (M0 eps : R).
  Notation m := (cx_mesh cx).
  Notation value := (@atV R real_value).
  Context (phi0 : volField R) (old0 : list R) (Hcase : float_case p cx bcs fvSchemes flux n M0 phi0 old0) (Heps : 0 <= eps).
  Context (e : expression) (Ee : ex_spatial e = [q]).
  Definition apart (d : R) (phi psi : volField R) : Prop := forall c, (c < nCells m)%nat -> Rabs (value (vf_int phi) c - value (vf_int psi) c) <= d.
  Definition within_range (M : R) (psi : volField R) : Prop := forall c, (c < nCells m)%nat -> Rabs (value (vf_int psi) c) <= M.

  Lemma loops ex ex' dbg dbg' tot : forall dts h h' phi old psi old' e0,
    good cx bcs phi old -> formats p cx phi -> good cx bcs psi old' -> has_div n flux q h -> has_div n flux q h' ->
    0 <= e0 -> e0 + INR (length dts) * eps <= tot -> apart e0 phi psi -> within_range M0 psi -> float_steps p cx flux dts ->
    (forall dt, dt ∈ dts -> forall c, (c < nCells m)%nat -> cell_defect p m (cx_surf cx flux) dt (M0 + tot) c <= eps) ->
    let run := @time_loop_any R (scalar_value p) scalar_tag dbg (on_executor ex cx) n bcs fvSchemes e dts h phi old in
    let run' := @time_loop_any R real_value scalar_tag dbg' (on_executor ex' cx) n bcs fvSchemes e dts h' psi old' in
    (exists r, run r) /\ (exists r, run' r) /\
    forall r r', run r -> run' r' -> exists h1 phi1 old1 h2 psi1 old2, r = Ok (h1, (phi1, old1)) /\ r' = Ok (h2, (psi1, old2)) /\
      good cx bcs phi1 old1 /\ formats p cx phi1 /\ good cx bcs psi1 old2 /\ within_range M0 psi1 /\
      apart (e0 + INR (length dts) * eps) phi1 psi1.
  Proof using Hcase Heps Ee.
    induction dts as [|dt dts IH]; intros h h' phi old psi old' e0 G F0 G' Hh Hh' He0 Htot Hap Hr Hst Hdef run run'; subst run run'; cbn [time_loop_any].
    - split; [eauto|]. split; [eauto|]. intros r r' -> ->. exists h, phi, old, h', psi, old'. do 6 (split; [done|]). cbn [length INR].
      intros c Hc. pose proof (Hap c Hc). lra.
    - cbn [length] in Htot |- *. rewrite S_INR in Htot |- *. pose proof (pos_INR (length dts)) as HN.
      assert (Hne : 0 <= INR (length dts) * eps) by nra.
      assert (Hst1 : float_steps p cx flux [dt]) by (intros x Hx%elem_of_list_singleton; subst x; apply Hst; by left).
      destruct (Hst dt ltac:(by left)) as (Hdt & _ & Hcou).
      assert (HbM : forall c, (c < nCells m)%nat -> Rabs (value (vf_int phi) c) <= M0 + tot).
      { intros c Hc. pose proof (Hap c Hc). pose proof (Hr c Hc).
        replace (value (vf_int phi) c) with (value (vf_int psi) c + (value (vf_int phi) c - value (vf_int psi) c)) by ring.
        pose proof (Rabs_triang (value (vf_int psi) c) (value (vf_int phi) c - value (vf_int psi) c)). lra. }
      destruct (float_step p cx n bcs fvSchemes flux q M0 phi0 old0 Hcase e Ee ex dbg h dt phi old (M0 + tot) G F0 Hh ltac:(lra) HbM Hst1) as [[r1 Hr1] Hall1].
      destruct (exact_step p cx n bcs fvSchemes flux q M0 phi0 old0 Hcase e Ee ex' dbg' h' dt psi old' G' Hh') as [[r2 Hr2] Hall2].
      destruct Hcase as [Hset Hdj _ _ Hfl Hfs Hw Hw1 Hdiv Hdf _ Hco _]. pose proof Hset as (Hm & _).
      pose proof G as [[(Li & _) _] _ Hmet]. pose proof G' as [[(Li' & _) _] _ Hmet'].
      (* one step of both, and the rest *)
      assert (Hgo : forall h1 phi1 old1 h2 psi1 old2, has_div n flux q h1 -> good cx bcs phi1 old1 -> formats p cx phi1 ->
        (forall c, (c < nCells m)%nat -> Rabs (value (vf_int phi1) c - (value (vf_int phi) c - QcR dt * rate cx flux phi c)) <= cell_defect p m (cx_surf cx flux) dt (M0 + tot) c) ->
        has_div n flux q h2 -> good cx bcs psi1 old2 ->
        (forall c, (c < nCells m)%nat -> value (vf_int psi1) c = value (vf_int psi) c - QcR dt * rate cx flux psi c) -> _) by
        exact (fun h1 phi1 old1 h2 psi1 old2 A1 A2 A3 A4 B1 B2 B3 =>
          IH h1 h2 phi1 old1 psi1 old2 (e0 + eps) A2 A3 B2 A1 B1 ltac:(lra) ltac:(lra)
            ltac:(intros c Hc; pose proof (A4 c Hc) as D1; rewrite (B3 c Hc); pose proof (Hdef dt ltac:(by left) c Hc) as D2;
              pose proof (rate_contracts p cx bcs flux M0 Hm Hw1 Hco Hdf dt phi psi e0 c He0 Hmet Hmet'
                ltac:(apply (everywhere2 cx (vf_int phi) (vf_int psi) (fun a b => Rabs (a - b) <= e0)); [done|done|rewrite Rminus_0_r, Rabs_R0; done|done]) Hc Hdt (Hcou c Hc)) as D3;
              match goal with |- Rabs (?x - ?y) <= _ =>
                replace (x - y) with ((x - (value (vf_int phi) c - QcR dt * rate cx flux phi c)) + (value (vf_int phi) c - QcR dt * rate cx flux phi c - y)) by ring end;
              eapply Rle_trans; [apply Rabs_triang|]; lra)
            ltac:(intros c Hc; rewrite (B3 c Hc);
              apply (rate_bounded p cx bcs flux M0 Hm Hw1 Hco Hdf dt psi M0 c ltac:(lra) Hmet'); [|done|done|by apply Hcou];
              apply (everywhere cx (vf_int psi) (fun a => Rabs a <= M0)); [done|rewrite Rabs_R0; pose proof (Hr c Hc); pose proof (Rabs_pos (value (vf_int psi) c)); lra|done])
            ltac:(intros x Hx; apply Hst; by right)
            ltac:(intros x Hx; apply Hdef; by right)).
      split; [|split].
      + destruct (Hall1 r1 Hr1) as (h1 & phi1 & old1 & -> & A1 & A2 & A3 & A4). destruct (Hall2 r2 Hr2) as (h2 & psi1 & old2 & -> & B1 & B2 & B3).
        destruct (Hgo h1 phi1 old1 h2 psi1 old2 A1 A2 A3 A4 B1 B2 B3) as ((r & Hrr) & _). exists r. left. by exists (h1, (phi1, old1)).
      + destruct (Hall1 r1 Hr1) as (h1 & phi1 & old1 & -> & A1 & A2 & A3 & A4). destruct (Hall2 r2 Hr2) as (h2 & psi1 & old2 & -> & B1 & B2 & B3).
        destruct (Hgo h1 phi1 old1 h2 psi1 old2 A1 A2 A3 A4 B1 B2 B3) as (_ & (r & Hrr) & _). exists r. left. by exists (h2, (psi1, old2)).
      + intros r r' Ha Hb.
        destruct Ha as [([h1 [phi1 old1]] & Ha & Ha')|[(x & Ha & _)|[[Ha _]|[Ha _]]]]; destruct (Hall1 _ Ha) as (h1' & phi1' & old1' & E1 & A1 & A2 & A3 & A4); try done.
        injection E1 as <- <- <-.
        destruct Hb as [([h2 [psi1 old2]] & Hb & Hb')|[(x & Hb & _)|[[Hb _]|[Hb _]]]]; destruct (Hall2 _ Hb) as (h2' & psi1' & old2' & E2 & B1 & B2 & B3); try done.
        injection E2 as <- <- <-.
        destruct (Hgo h1 phi1 old1 h2 psi1 old2 A1 A2 A3 A4 B1 B2 B3) as (_ & _ & HH).
        destruct (HH r r' Ha' Hb') as (h3 & phi3 & old3 & h4 & psi3 & old4 & -> & -> & R1 & R2 & R3 & R4 & R5).
        exists h3, phi3, old3, h4, psi3, old4. do 6 (split; [done|]).
        intros c Hc. pose proof (R5 c Hc). lra.
  Qed.
End runs.

(** * C124 *)
(** Every run in float or double, on any executor and under any schedule, and every
    run in exact arithmetic end normally; after [N] steps no cell value of one is
    further than [N * eps] from that of the other, when [eps] bounds what the
    roundings of a step can add in a cell.  The exact values are no larger than
    the initial and prescribed ones. *)
Theorem C124_close : forall p (cx : ctx R) bcs fvSchemes flux n M phi old dts eps,
  float_case p cx bcs fvSchemes flux n M phi old -> float_steps p cx flux dts -> 0 <= eps ->
  (forall dt, dt ∈ dts -> forall c, (c < nCells (cx_mesh cx))%nat ->
     cell_defect p (cx_mesh cx) (cx_surf cx flux) dt (M + INR (length dts) * eps) c <= eps) ->
  forall ex ex' dbg dbg',
  (exists r, float_run p ex dbg cx n bcs fvSchemes flux dts phi old r) /\
  (exists r, exact_run ex' dbg' cx n bcs fvSchemes flux dts phi old r) /\
  forall r r', float_run p ex dbg cx n bcs fvSchemes flux dts phi old r -> exact_run ex' dbg' cx n bcs fvSchemes flux dts phi old r' ->
    exists x oldx y oldy, r = Ok (x, oldx) /\ r' = Ok (y, oldy) /\
      length (vf_int x) = nCells (cx_mesh cx) /\ length (vf_int y) = nCells (cx_mesh cx) /\
      forall c, (c < nCells (cx_mesh cx))%nat ->
        scalar_format p (value_at (vf_int x) c) /\ Rabs (value_at (vf_int y) c) <= M /\
        Rabs (value_at (vf_int x) c - value_at (vf_int y) c) <= INR (length dts) * eps.
Proof.
  intros p cx bcs d flux n M phi old dts eps Hcase Hst Heps Hdef ex ex' dbg dbg'.
  destruct (program_upwind n flux) as (h & Ep & Hh).
  pose proof Hcase as [_ _ Hsa Hold _ _ _ _ _ _ Hcells _ Hmet].
  destruct (loops p cx n bcs d flux 2 M eps phi old Hcase Heps (Expression [2%nat] [2%nat]) eq_refl ex ex' dbg dbg' (INR (length dts) * eps)
    dts h h phi old phi old 0) as ((r1 & H1) & (r2 & H2) & Hall); try done.
  - intros c Hc. by apply Hcells.
  - lra.
  - lra.
  - intros c Hc. replace (value_at (vf_int phi) c - value_at (vf_int phi) c) with 0 by ring. rewrite Rabs_R0. lra.
  - intros c Hc. by apply Hcells.
  - destruct (Hall r1 r2 H1 H2) as (h1 & x & ox & h2 & y & oy & -> & -> & _).
    split; [|split].
    + exists (Ok (x, ox)), (Expression [2%nat] [2%nat]), h. split; [done|]. left. exists (h1, (x, ox)). done.
    + exists (Ok (y, oy)), (Expression [2%nat] [2%nat]), h. split; [done|]. left. exists (h2, (y, oy)). done.
    + clear h1 x ox h2 y oy H1 H2. intros r r' (e & h0 & E & Hr) (e' & h0' & E' & Hr').
      rewrite Ep in E, E'. injection E as <- <-. injection E' as <- <-.
      assert (Hor : forall (q : outcome (heap R * (volField R * list R)) -> Prop) (out : outcome (volField R * list R)),
        rseq q (fun a r'0 => r'0 = Ok a.2) out -> exists z, q z /\ (forall a b, z = Ok (a, b) -> out = Ok b)).
      { intros q out [([a b] & Ha & ->)|[(z & Hz & ->)|[[Hz ->]|[Hz ->]]]]; eexists; (split; [exact Ha || exact Hz|]); intros ? ? [=]; by subst. }
      destruct (Hor _ _ Hr) as (z & Hz & Ez). destruct (Hor _ _ Hr') as (z' & Hz' & Ez').
      destruct (Hall z z' Hz Hz') as (h1 & x & ox & h2 & y & oy & E1 & E2 & G1 & F1 & G2 & R2 & A).
      exists x, ox, y, oy. split; [by apply (Ez h1)|]. split; [by apply (Ez' h2)|].
      destruct G1 as [[(L1 & _) _] _ _]. destruct G2 as [[(L2 & _) _] _ _]. split; [done|]. split; [done|].
      intros c Hc. split; [by apply F1|]. split; [by apply R2|]. pose proof (A c Hc). lra.
Qed.
Print Assumptions C124_close.

(** The rounded values leave the range of the initial and prescribed ones by no
    more than that. *)
Theorem C124_range : forall p (cx : ctx R) bcs fvSchemes flux n M phi old dts eps,
  float_case p cx bcs fvSchemes flux n M phi old -> float_steps p cx flux dts -> 0 <= eps ->
  (forall dt, dt ∈ dts -> forall c, (c < nCells (cx_mesh cx))%nat ->
     cell_defect p (cx_mesh cx) (cx_surf cx flux) dt (M + INR (length dts) * eps) c <= eps) ->
  forall ex dbg r, float_run p ex dbg cx n bcs fvSchemes flux dts phi old r ->
    exists x oldx, r = Ok (x, oldx) /\
      forall c, (c < nCells (cx_mesh cx))%nat -> Rabs (value_at (vf_int x) c) <= M + INR (length dts) * eps.
Proof.
  intros p cx bcs d flux n M phi old dts eps Hcase Hst Heps Hdef ex dbg r Hr.
  destruct (C124_close p cx bcs d flux n M phi old dts eps Hcase Hst Heps Hdef ex ex dbg dbg) as (_ & (r' & Hr') & Hall).
  destruct (Hall r r' Hr Hr') as (x & ox & y & oy & -> & _ & _ & _ & Hc). exists x, ox. split; [done|]. intros c Hcc.
  destruct (Hc c Hcc) as (_ & Hy & Hd). replace (value_at (vf_int x) c) with (value_at (vf_int y) c + (value_at (vf_int x) c - value_at (vf_int y) c)) by ring.
  pose proof (Rabs_triang (value_at (vf_int y) c) (value_at (vf_int x) c - value_at (vf_int y) c)). lra.
Qed.
Print Assumptions C124_range.

(** Runs on different executors, under different schedules, in different builds,
    in different precisions: no cell differs by more than the two bounds. *)
Theorem C124_executors : forall p p' (cx : ctx R) bcs fvSchemes flux n M phi old dts eps eps',
  float_case p cx bcs fvSchemes flux n M phi old -> float_steps p cx flux dts -> 0 <= eps ->
  float_case p' cx bcs fvSchemes flux n M phi old -> float_steps p' cx flux dts -> 0 <= eps' ->
  (forall dt, dt ∈ dts -> forall c, (c < nCells (cx_mesh cx))%nat ->
     cell_defect p (cx_mesh cx) (cx_surf cx flux) dt (M + INR (length dts) * eps) c <= eps /\
     cell_defect p' (cx_mesh cx) (cx_surf cx flux) dt (M + INR (length dts) * eps') c <= eps') ->
  forall ex ex' dbg dbg' r r',
    float_run p ex dbg cx n bcs fvSchemes flux dts phi old r -> float_run p' ex' dbg' cx n bcs fvSchemes flux dts phi old r' ->
    exists x oldx y oldy, r = Ok (x, oldx) /\ r' = Ok (y, oldy) /\
      forall c, (c < nCells (cx_mesh cx))%nat ->
        Rabs (value_at (vf_int x) c - value_at (vf_int y) c) <= INR (length dts) * (eps + eps').
Proof.
  intros p p' cx bcs d flux n M phi old dts eps eps' Hcase Hst Heps Hcase' Hst' Heps' Hdef ex ex' dbg dbg' r r' Hr Hr'.
  destruct (C124_close p cx bcs d flux n M phi old dts eps Hcase Hst Heps (fun dt Hd c Hc => proj1 (Hdef dt Hd c Hc)) ex ex dbg dbg) as (_ & (z & Hz) & Hall).
  destruct (C124_close p' cx bcs d flux n M phi old dts eps' Hcase' Hst' Heps' (fun dt Hd c Hc => proj2 (Hdef dt Hd c Hc)) ex' ex dbg' dbg) as (_ & _ & Hall').
  destruct (Hall r z Hr Hz) as (x & ox & y & oy & -> & -> & _ & _ & Hx).
  destruct (Hall' r' _ Hr' Hz) as (x' & ox' & y' & oy' & -> & [= <- <-] & _ & _ & Hx').
  exists x, ox, x', ox'. split; [done|]. split; [done|]. intros c Hc.
  destruct (Hx c Hc) as (_ & _ & H1). destruct (Hx' c Hc) as (_ & _ & H2).
  replace (value_at (vf_int x) c - value_at (vf_int x') c) with ((value_at (vf_int x) c - value_at (vf_int y) c) + - (value_at (vf_int x') c - value_at (vf_int y) c)) by ring.
  eapply Rle_trans; [apply Rabs_triang|]. rewrite Rabs_Ropp. lra.
Qed.
Print Assumptions C124_executors.

(** The amount of the transported quantity in the domain, computed exactly from the
    rounded values, differs from the exact one by no more than [N * eps] per volume. *)
Theorem C124_content : forall p (cx : ctx R) bcs fvSchemes flux n M phi old dts eps,
  float_case p cx bcs fvSchemes flux n M phi old -> float_steps p cx flux dts -> 0 <= eps ->
  (forall dt, dt ∈ dts -> forall c, (c < nCells (cx_mesh cx))%nat ->
     cell_defect p (cx_mesh cx) (cx_surf cx flux) dt (M + INR (length dts) * eps) c <= eps) ->
  forall ex ex' dbg dbg' r r',
    float_run p ex dbg cx n bcs fvSchemes flux dts phi old r -> exact_run ex' dbg' cx n bcs fvSchemes flux dts phi old r' ->
    exists x oldx y oldy, r = Ok (x, oldx) /\ r' = Ok (y, oldy) /\
      let amount z := sumR (map (fun c => QcR (at0 (cellVolumes (cx_mesh cx)) c) * value_at (vf_int z) c) (seq 0 (nCells (cx_mesh cx)))) in
      Rabs (amount x - amount y) <= INR (length dts) * eps * sumR (map (fun c => QcR (at0 (cellVolumes (cx_mesh cx)) c)) (seq 0 (nCells (cx_mesh cx)))).
Proof.
  intros p cx bcs d flux n M phi old dts eps Hcase Hst Heps Hdef ex ex' dbg dbg' r r' Hr Hr'.
  destruct (C124_close p cx bcs d flux n M phi old dts eps Hcase Hst Heps Hdef ex ex' dbg dbg') as (_ & _ & Hall).
  destruct (Hall r r' Hr Hr') as (x & ox & y & oy & -> & -> & _ & _ & Hx). exists x, ox, y, oy. split; [done|]. split; [done|]. cbv zeta.
  pose proof (proj1 (fc_setup _ _ _ _ _ _ _ _ _ Hcase)) as Hm. set (m := cx_mesh cx) in *.
  assert (H : forall l, (forall c, c ∈ l -> (c < nCells m)%nat) ->
    Rabs (sumR (map (fun c => QcR (at0 (cellVolumes m) c) * value_at (vf_int x) c) l) - sumR (map (fun c => QcR (at0 (cellVolumes m) c) * value_at (vf_int y) c) l))
      <= INR (length dts) * eps * sumR (map (fun c => QcR (at0 (cellVolumes m) c)) l)).
  { induction l as [|c l IH]; intros Hl.
    - cbn. rewrite Rminus_0_r, Rabs_R0. lra.
    - specialize (IH ltac:(intros; apply Hl; by right)). pose proof (Hl c ltac:(by left)) as Hc. destruct (Hx c Hc) as (_ & _ & Hd).
      pose proof (QcR_pos _ (vt_vol _ Hm c Hc)) as HV. cbn [map]. change (sumR (?a :: ?b)) with (a + sumR b).
      match goal with |- Rabs (?v * ?a + ?A - (?v * ?b + ?B)) <= _ => replace (v * a + A - (v * b + B)) with (v * (a - b) + (A - B)) by ring;
        pose proof (Rabs_triang (v * (a - b)) (A - B)) as T; rewrite (Rabs_mult v), (Rabs_right v) in T by lra;
        pose proof (Rmult_le_compat_l v _ _ ltac:(lra) Hd) end. lra. }
  apply H. intros c Hc%elem_of_seq. lia.
Qed.
Print Assumptions C124_content.

(** * A case: a branching mesh of three cells, flow in at 7 and out, steps of size
    1/2 with Courant number 1/2, in double: after any number of steps up to 2^30
    every value is within [N * 2^-46] of the exact one. *)
Definition cxF : ctx R :=
  Ctx SerialExecutor fork3 [1; 1; 1; 1]%Qc [1; 1; 1; 1]%Qc (Sparsity [] [] [] [] [])
      (fun _ => [-(1); 1; -(1); 1]%Qc) (fun _ => []) (fun _ => VolField [] [] [] [] [])
      (fun _ => []) (fun _ => []) (fun _ => "flux"%string) (fun _ => "phi"%string).
Definition bcsF : list (patch * volBC R) := [(Patch 0 0 1, FixedValue 7); (Patch 1 1 2, FixedGradient 0)].
Definition phiF : volField R := VolField [1; 5; 3] [7; 3] [7; 0] [1; 0]%Qc [0; 0].

Lemma int_format k p : (Z.abs k < 2 ^ 24)%Z -> scalar_format p (IZR k).
Proof.
  intros Hk. apply generic_format_FLT. exists (Defs.Float radix2 k 0); cbn; [unfold F2R; cbn; ring| |destruct p; cbn; lia].
  eapply Z.lt_le_trans; [exact Hk|]. destruct p; cbn; lia.
Qed.
Lemma QcR_half : QcR (Q2Qc (1 # 2)) = / 2.
Proof. unfold QcR. change (IZR 1 / IZR 2 = / 2). lra. Qed.
Lemma powers_small x : 0 <= x <= / 1000 -> (1 + x) ^ 4 <= 2 /\ (1 + x) ^ 5 <= 2 /\ (1 + x) ^ 2 <= 2 /\ (1 + x) ^ 9 - 1 <= 10 * x.
Proof.
  intros [H0 H1].
  assert (A2 : (1 + x) ^ 2 <= 1 + 2.01 * x) by nra.
  assert (A4 : (1 + x) ^ 4 <= 1 + 4.1 * x). { replace ((1 + x) ^ 4) with ((1 + x) ^ 2 * (1 + x) ^ 2) by ring. assert (0 <= (1 + x) ^ 2) by nra. nra. }
  assert (A8 : (1 + x) ^ 8 <= 1 + 8.5 * x). { replace ((1 + x) ^ 8) with ((1 + x) ^ 4 * (1 + x) ^ 4) by ring. assert (0 <= (1 + x) ^ 4) by (apply pow_le; lra). nra. }
  assert (A9 : (1 + x) ^ 9 <= 1 + 10 * x). { replace ((1 + x) ^ 9) with ((1 + x) ^ 8 * (1 + x)) by ring. assert (0 <= (1 + x) ^ 8) by (apply pow_le; lra). nra. }
  assert (A5 : (1 + x) ^ 5 <= 1 + 6 * x). { replace ((1 + x) ^ 5) with ((1 + x) ^ 4 * (1 + x)) by ring. assert (0 <= (1 + x) ^ 4) by (apply pow_le; lra). nra. }
  repeat split; lra.
Qed.
Lemma around_3 c g a : (c < 3)%nat -> (forall f, (f < 4)%nat -> g f = a) -> sum_around fork3 c g = 2 * a /\ length (faces_around fork3 c) = 2%nat.
Proof.
  intros Hc Hg.
  assert (H : forall f f', (f < 4)%nat -> (f' < 4)%nat -> faces_around fork3 c = [f; f'] -> sum_around fork3 c g = 2 * a /\ length (faces_around fork3 c) = 2%nat).
  { intros f f' Hf Hf' E. unfold sum_around. rewrite E. split; [|done]. unfold sumR. cbn [map foldr]. rewrite (Hg f), (Hg f') by done. ring. }
  destruct c as [|[|[|c]]]; [apply (H 0 1)%nat|apply (H 0 2)%nat|apply (H 1 3)%nat|]; lia || (vm_compute; reflexivity).
Qed.
Ltac cells_3 := let c := fresh "c" in let H := fresh "H" in intros c H; cbn in H; destruct c as [|[|[|[|c]]]]; try lia.

Lemma caseF p : float_case p cxF bcsF (schemesR) 0 0 7 phiF [1; 5; 3].
Proof.
  pose proof (fun k => int_format k p) as IF.
  split.
  - split; [apply fork3_topology|]. repeat (split; [done|]). repeat constructor; unfold patch_ok; cbn; lia.
  - intros i j a b Hi Hj Hne x Hx Hx'. destruct i as [|[|i]], j as [|[|j]]; cbn in Hi, Hj; try done; injection Hi as <-; injection Hj as <-; unfold in_patch in *; cbn in *; lia.
  - split; [|done]. repeat split; done.
  - done.
  - done.
  - repeat (apply Forall_cons; split); try apply Forall_nil; try done; rewrite ?QcR_opp, QcR_1; try apply (IF 1%Z); try apply format_opp, (IF 1%Z); done.
  - assert (scalar_format p (QcR 1%Qc) /\ 0 <= QcR 1%Qc <= 1) by (rewrite QcR_1; split; [by apply (IF 1%Z)|lra]).
    repeat (apply Forall_cons; split; [done|]). by apply Forall_nil.
  - intros f Hf. cbn in Hf. destruct f as [|[|[|[|f]]]]; try lia; reflexivity.
  - eexists. vm_compute. reflexivity.
  - cells_3; apply Qc_is_canon; vm_compute; reflexivity.
  - cells_3; unfold atV; cbn; (split; [apply (IF 1%Z) + apply (IF 5%Z) + apply (IF 3%Z); done|rewrite Rabs_right by lra; lra]).
  - intros b Hb. cbn in Hb. destruct b as [|[|b]]; try lia.
    + exists (Patch 0 0 1), (FixedValue 7). split; [left|]. split; [cbv; lia|]. split; [vm_compute; discriminate|]. split; [by apply (IF 7%Z)|]. rewrite Rabs_right by lra; lra.
    + exists (Patch 1 1 2), (FixedGradient 0). split; [right; left|]. split; [cbv; lia|]. done.
  - intros b q bc Hb Hin Hp. cbn in Hb. apply elem_of_cons in Hin as [[= -> ->]|Hin%elem_of_list_singleton]; [|injection Hin as -> ->];
      unfold in_patch in Hp; cbn in Hp; destruct b as [|[|b]]; try lia; reflexivity.
Qed.
Example C124_instance : forall N : nat, INR N <= 2 ^ 30 ->
  float_case Double cxF bcsF schemesR 0 0 7 phiF [1; 5; 3] /\ float_steps Double cxF 0 (replicate N (Q2Qc (1 # 2))) /\
  (forall dt, dt ∈ replicate N (Q2Qc (1 # 2)) -> forall c, (c < nCells (cx_mesh cxF))%nat ->
     cell_defect Double (cx_mesh cxF) (cx_surf cxF 0) dt (7 + INR (length (replicate N (Q2Qc (1 # 2)))) * / 2 ^ 46) c <= / 2 ^ 46).
Proof.
  intros N HN. split; [apply caseF|]. split.
  - intros dt Hdt%elem_of_replicate. destruct Hdt as [-> _]. split; [vm_compute; reflexivity|]. split.
    + assert (Q2Qc (1 # 2) = 1 / (1 + 1))%Qc as -> by (apply Qc_is_canon; vm_compute; reflexivity). apply half_scalar.
    + cells_3; vm_compute; discriminate.
  - intros dt Hdt%elem_of_replicate c Hc. destruct Hdt as [-> _]. rewrite replicate_length. cbn [cx_mesh cxF nCells fork3] in Hc.
    change (cx_mesh cxF) with fork3. change (cx_surf cxF 0) with [-(1); 1; -(1); 1]%Qc.
    set (M := 7 + INR N * / 2 ^ 46). assert (HM : 0 <= M <= 8).
    { pose proof (pos_INR N). unfold M. assert (0 < / 2 ^ 46) by (apply Rinv_0_lt_compat, pow_lt; lra).
      assert (INR N * / 2 ^ 46 <= 2 ^ 30 * / 2 ^ 46) by (apply Rmult_le_compat_r; lra). assert (2 ^ 30 * / 2 ^ 46 <= 1) by lra. nra. }
    assert (HF : forall f, (f < 4)%nat -> Rabs (QcR (at0 [-(1); 1; -(1); 1]%Qc f)) = 1).
    { intros f Hf. assert (at0 [-(1); 1; -(1); 1]%Qc f = 1%Qc \/ at0 [-(1); 1; -(1); 1]%Qc f = (-(1))%Qc) as [-> | ->].
      { destruct f as [|[|[|[|f]]]]; try lia; [right|left|right|left]; reflexivity. }
      - rewrite QcR_1. apply Rabs_R1.
      - rewrite QcR_opp, QcR_1, Rabs_Ropp. apply Rabs_R1. }
    destruct (around_3 c (fun f => Rabs (QcR (at0 [-(1); 1; -(1); 1]%Qc f))) 1 Hc HF) as [S1 L1].
    destruct (around_3 c (fun f => (2 * (1 + u Double) ^ 2 * Rabs (QcR (at0 [-(1); 1; -(1); 1]%Qc f)) + 1) * eta Double) ((2 * (1 + u Double) ^ 2 * 1 + 1) * eta Double) Hc) as [S2 _].
    { intros f Hf. by rewrite HF. }
    assert (Hvol : QcR (1 / at0 (cellVolumes fork3) c)%Qc = 1).
    { destruct c as [|[|[|c]]]; try lia; rewrite <- QcR_1; f_equal; apply Qc_is_canon; vm_compute; reflexivity. }
    unfold cell_defect, total_bound. rewrite S1, S2, L1, Hvol.
    rewrite QcR_half.
    rewrite Rabs_R0, (Rabs_right 1) by lra. cbn [Nat.add].
    assert (Eu : u Double = / 2 ^ 53) by done. set (U := u Double) in *. set (H := eta Double).
    assert (HU : 0 <= U <= / 1000) by (rewrite Eu; split; lra).
    assert (HH : 0 <= H <= / 2 ^ 60).
    { split; [left; apply eta_pos|]. unfold H, eta. cbn [emin]. rewrite <- (Rmult_1_l (/ 2 ^ 60)). assert (bpow radix2 (-1074) <= bpow radix2 (-60)) by (apply bpow_le; lia).
      assert (bpow radix2 (-60) = / 2 ^ 60) as E60 by (rewrite bpow_powerRZ; unfold powerRZ; reflexivity). rewrite E60 in *. assert (0 < bpow radix2 (-1074)) by apply bpow_gt_0. lra. }
    destruct (powers_small U HU) as (P4 & P5 & P2 & P9).
    assert (Q4 : 0 <= (1 + U) ^ 4) by (apply pow_le; lra). assert (Q5 : 0 <= (1 + U) ^ 5) by (apply pow_le; lra). assert (Q2 : 0 <= (1 + U) ^ 2) by (apply pow_le; lra).
    assert (Q9 : 0 <= (1 + U) ^ 9 - 1) by (assert (1 <= (1 + U) ^ 9) by (apply pow_R1_Rle; lra); lra).
    set (p9 := (1 + U) ^ 9) in *. set (p5 := (1 + U) ^ 5) in *. set (p4 := (1 + U) ^ 4) in *. set (p2 := (1 + U) ^ 2) in *.
    clearbody p9 p5 p4 p2.
    assert (HT : 0 <= M * (2 * 1) <= 16) by lra. set (T := M * (2 * 1)) in *.
    assert (HE : 0 <= 2 * ((2 * p2 * 1 + 1) * H) <= 10 * H) by (split; nra). set (E := 2 * ((2 * p2 * 1 + 1) * H)) in *.
    assert (B1 : 0 <= (p9 - 1) * (1 * T) <= 160 * U) by (split; nra).
    assert (B2 : 0 <= p5 * (1 * E) <= 20 * H) by (split; nra).
    assert (B3 : 0 <= p4 * ((p4 * T + E) * H) <= 84 * H).
    { assert (0 <= p4 * T + E <= 42) by (split; nra). assert (0 <= (p4 * T + E) * H <= 42 * H) by (split; nra). split; nra. }
    assert (B4 : 0 <= (1 + U) * H <= 2 * H) by (split; nra).
    set (B := U * 0 + (p9 - 1) * (1 * T) + p5 * (1 * E) + p4 * ((p4 * T + E) * H) + (1 + U) * H).
    assert (HB : 0 <= B <= 160 * U + 106 * H) by (unfold B; lra).
    assert (HUM : 0 <= U * M <= 8 * U) by (split; nra).
    assert (B5 : 0 <= (1 + U) * (/ 2 * B) <= 81 * U + 54 * H) by (split; nra).
    assert (B6 : 0 <= (1 + U) * (/ 2 * B) + 2 * U * M + H <= 97 * U + 55 * H) by lra.
    assert (B7 : (1 + U) * ((1 + U) * (/ 2 * B) + 2 * U * M + H) <= 98 * U + 56 * H) by nra.
    assert (H * 128 <= U) by (rewrite Eu; lra). assert (106.5 * U <= / 2 ^ 46) by (rewrite Eu; lra). lra.
Qed.
