(** C124: the exact run of Properties_FloatRun.v is, for rational data, the run of
    the program of C95. *)
From Coq Require Import Reals Lra Psatz.
From Verif Require Import Base Dict Registry Par Exec ExecProofs Fields FieldsProofs Value Kernel Mesh MeshSpec MeshProofs Coeff FV FVSpec FVProofs FVAnyArith Properties_AnyArith Properties_FV Sparsity Assembly AssemblyProps Boundary BoundaryProofs Properties_Boundary Dsl DslSpec DslProofs Properties_Dsl ExampleMesh Properties_DslAssembly TimeInt TimeSpec TimeIntProofs TimeIntSteps Properties_TimeInt FrontEnd Transport Properties_CoNum Properties_Transport TimeAny TimeAnyProofs
  Properties_Float Properties_AssemblyAny FloatFaces FloatTotal Properties_FloatFaces Properties_Reproducible FloatRun Properties_FloatRun.
Local Open Scope R_scope.

(** Rational data as real data. *)
Definition field_in_reals (phi : volField Qc) : volField R :=
  VolField (map QcR (vf_int phi)) (map QcR (vf_value phi)) (map QcR (vf_refValue phi)) (vf_valueFraction phi) (map QcR (vf_refGrad phi)).
Definition bc_in_reals (bc : volBC Qc) : volBC R :=
  match bc with
  | FixedValue v => FixedValue (QcR v)
  | FixedGradient g => FixedGradient (QcR g)
  | Extrapolated => Extrapolated
  | Calculated => Calculated
  | EmptyBC => EmptyBC
  end.
Definition bcs_in_reals (bcs : list (patch * volBC Qc)) : list (patch * volBC R) := map (fun a => (a.1, bc_in_reals a.2)) bcs.
Definition in_reals (cx : ctx Qc) : ctx R :=
  Ctx (cx_exec cx) (cx_mesh cx) (cx_weights cx) (cx_dc cx) (cx_pattern cx) (cx_surf cx) (fun i => map QcR (cx_surfV cx i))
    (fun i => field_in_reals (cx_vol cx i)) (cx_coef cx) (fun i => map QcR (cx_old cx i)) (cx_surfName cx) (cx_volName cx).

Lemma at_map l i : value_at (map QcR l) i = QcR (at0 l i).
Proof.
  unfold atV, at0. change (map QcR l) with (QcR <$> l). rewrite list_lookup_fmap. destruct (l !! i); [done|]. cbn. by rewrite QcR_0.
Qed.

Section rational.
  Context (p : precision) (cq : ctx Qc) (n : nat) (bcs : list (patch * volBC Qc)) (fvSchemes : dict) (flux q : nat) (M : R).
  Notation cx := (in_reals cq).
  Notation m := (cx_mesh cq).
  Context (Hm : valid_topology m) (Hw1 : boundary_weights_1 m (cx_weights cq)).
  Lemma rate_rational (phi : volField Qc) (psi : volField R) c : (c < nCells m)%nat ->
    (forall i, value_at (vf_int psi) i = QcR (at0 (vf_int phi) i)) ->
    (forall b, (b < nBoundaryFaces m)%nat -> value_at (vf_value psi) b = QcR (at0 (vf_value phi) b)) ->
    QcR (at0 (cellVolumes m) c) * rate cx flux psi c =
      QcR (cell_balance m (fun f => at0 (cx_surf cq flux) f * face_value m Upwind phi (cx_surf cq flux) (cx_weights cq) f)%Qc c).
  Proof using Hm Hw1.
    intros Hc Hi Hb. pose proof (QcR_pos _ (vt_vol _ Hm c Hc)) as HV. unfold rate. rewrite QcR_inv by (by apply (vt_vol _ Hm)). cbn [cx_mesh in_reals].
    rewrite <- Rmult_assoc, Rinv_r, Rmult_1_l by lra.
    assert (Hf : forall f, (f < nFaces m)%nat -> upf cx flux psi f = QcR (face_value m Upwind phi (cx_surf cq flux) (cx_weights cq) f)).
    { intros f Hf. unfold upf, face_value. cbn [cx_mesh cx_surf cx_weights in_reals]. destruct (decide (f < nInternalFaces m)%nat) as [Hi2|Hi2].
      - unfold at_owner, at_neighbour. destruct (Qclt_le_dec _ 0); apply Hi.
      - rewrite Hw1 by lia. pose proof (vt_faces _ Hm). rewrite Hb by lia. unfold vscale, real_value, Qc_value. rewrite QcR_mult. done. }
    unfold cell_balance, vsub. unfold vadd at 3 4, vneg at 2, Qc_value. rewrite !QcR_plus, QcR_opp, !QcR_vsum_over.
    unfold vadd, vneg, real_value. fold real_value.
    assert (Hext : forall k (g h : nat -> R), (forall i, (i < k)%nat -> g i = h i) -> @vsum_over R real_value k g = @vsum_over R real_value k h).
    { intros k g h E. unfold vsum_over. f_equal. apply map_ext_in. intros i Hin. apply in_seq in Hin. apply E. lia. }
    pose proof (vt_faces _ Hm) as HF.
    f_equal; [f_equal; [|f_equal]|]; apply Hext; intros i Hii; rewrite QcR_if; destruct (decide _); try done; rewrite QcR_mult, Hf by lia; done.
  Qed.
End rational.

(** The exact program runs. *)
Lemma exact_runs p (cx : ctx R) n bcs d flux M phi old : float_case p cx bcs d flux n M phi old ->
  forall ex dbg dts, exists r, exact_run ex dbg cx n bcs d flux dts phi old r.
Proof.
  intros Hcase ex dbg dts. destruct (program_upwind n flux) as (h & Ep & Hh).
  assert (H : forall dts h phi1 old1, good cx bcs phi1 old1 -> has_div n flux 2 h ->
    exists h2 y oy, @time_loop_any R real_value scalar_tag dbg (on_executor ex cx) n bcs d (Expression [2%nat] [2%nat]) dts h phi1 old1 (Ok (h2, (y, oy)))).
  { induction dts0 as [|dt dts0 IH]; intros h1 phi1 old1 G Hh1; cbn [time_loop_any]; [eauto|].
    destruct (exact_step p cx n bcs d flux 2 M _ _ Hcase (Expression [2%nat] [2%nat]) eq_refl ex dbg h1 dt phi1 old1 G Hh1) as [[r Hr] Hall].
    destruct (Hall r Hr) as (h2 & phi2 & old2 & -> & Hh2 & G2 & _). destruct (IH h2 phi2 old2 G2 Hh2) as (h3 & y & oy & HL).
    exists h3, y, oy. left. exists (h2, (phi2, old2)). done. }
  destruct (H dts h phi old) as (h2 & y & oy & HL); [|done|].
  { split; [apply (fc_state _ _ _ _ _ _ _ _ _ Hcase)|apply (fc_old _ _ _ _ _ _ _ _ _ Hcase)|apply (fc_met _ _ _ _ _ _ _ _ _ Hcase)]. }
  exists (Ok (y, oy)), (Expression [2%nat] [2%nat]), h. split; [done|]. left. exists (h2, (y, oy)). done.
Qed.

(** For rational data that fits (C95) the exact run is the rational one: the same
    cell values. *)
Theorem C124_exact_program : forall p (cq : ctx Qc) bcs lin fvSchemes fvSolution flux n M st (l : list (Qc * Qc)),
  explicit_case cq bcs fvSchemes flux n st -> old_of st = vf_int (ts_phi st) ->
  float_case p (in_reals cq) (bcs_in_reals bcs) fvSchemes flux n M (field_in_reals (ts_phi st)) (map QcR (vf_int (ts_phi st))) ->
  forall ex dbg dbg' r r',
  exact_run ex dbg (in_reals cq) n (bcs_in_reals bcs) fvSchemes flux (map snd l) (field_in_reals (ts_phi st)) (map QcR (vf_int (ts_phi st))) r ->
  run_program (explicit_transport flux n) dbg' cq n bcs lin fvSchemes fvSolution l st r' ->
  exists x oldx st', r = Ok (x, oldx) /\ r' = Ok st' /\ vf_int x = map QcR (vf_int (ts_phi st')).
Proof.
  intros p cq bcs lin d sol flux n M st l Hq Hold Hcase ex dbg dbg' r r' Hr Hr'.
  destruct (C95_explicit_transport dbg' cq bcs lin d sol flux n st l Hq Hold) as (f & F0 & Hs & Hstep).
  apply Hs in Hr'. subst r'. set (m := cx_mesh cq).
  pose proof (fc_setup _ _ _ _ _ _ _ _ _ Hcase) as (Hm & _). pose proof (fc_boundary_weights _ _ _ _ _ _ _ _ _ Hcase) as Hw1.
  pose proof (fc_conditions _ _ _ _ _ _ _ _ _ Hcase) as Hco. pose proof (fc_met _ _ _ _ _ _ _ _ _ Hcase) as Hmet0.
  pose proof (ec_state _ _ _ _ _ _ Hq) as [(Li & Lv & _) _].
  destruct (program_upwind n flux) as (h & Ep & Hh). destruct Hr as (e & h0 & E & Hr). rewrite Ep in E. injection E as <- <-.
  assert (Hloop : forall k l2 h2 psi old z, l = take k l ++ l2 -> length (take k l) = k -> good (in_reals cq) (bcs_in_reals bcs) psi old -> has_div n flux 2 h2 ->
    vf_int psi = map QcR (vf_int (ts_phi (f k))) ->
    (forall b, (b < nBoundaryFaces m)%nat -> value_at (vf_value psi) b = QcR (at0 (vf_value (ts_phi (f k))) b)) ->
    @time_loop_any R real_value scalar_tag dbg (on_executor ex (in_reals cq)) n (bcs_in_reals bcs) d (Expression [2%nat] [2%nat]) (map snd l2) h2 psi old z ->
    exists h3 x ox, z = Ok (h3, (x, ox)) /\ vf_int x = map QcR (vf_int (ts_phi (f (length l))))).
  { intros k l2. revert k. induction l2 as [|[t dt] l2 IH]; intros k h2 psi old z El Lk G Hh2 Hint Hbv Hz.
    - cbn in Hz. subst z. exists h2, psi, old. split; [done|]. assert (length l = k) as ->; [|done].
      rewrite app_nil_r in El. rewrite El. done.
    - cbn [map snd time_loop_any] in Hz.
      destruct (exact_step p (in_reals cq) n (bcs_in_reals bcs) d flux 2 M _ _ Hcase (Expression [2%nat] [2%nat]) eq_refl ex dbg h2 dt psi old G Hh2) as [_ Hall].
      destruct Hz as [([h3 [psi3 old3]] & Ha & Hz)|[(x & Ha & _)|[[Ha _]|[Ha _]]]]; destruct (Hall _ Ha) as (h4 & psi4 & old4 & E4 & Hh4 & G4 & V4); try done.
      injection E4 as <- <- <-.
      assert (Elk : l !! k = Some (t, dt)).
      { rewrite El, lookup_app_r by lia. rewrite Lk, Nat.sub_diag. done. }
      destruct (Hstep k t dt Elk) as [[Lx Hadv] [Hbc _]].
      assert (Hint3 : vf_int psi3 = map QcR (vf_int (ts_phi (f (S k))))).
      { pose proof G4 as [[(Li4 & _) _] _ _]. cbn [cx_mesh in_reals] in Li4. fold m in Li4, Lx. apply (list_eq_same_length _ _ (nCells m)); [by rewrite map_length|done|].
        intros i x y Hlt Hx Hy. pose proof (V4 i Hlt) as V. pose proof (Hadv i Hlt) as A.
        assert (Ex : value_at (vf_int psi3) i = x) by (unfold atV; by rewrite Hx).
        assert (Ey : value_at (map QcR (vf_int (ts_phi (f (S k))))) i = y) by (unfold atV; by rewrite Hy).
        rewrite at_map in Ey. rewrite <- Ex, <- Ey, V.
        pose proof (rate_rational cq flux Hm Hw1 (ts_phi (f k)) psi i Hlt ltac:(intros j; rewrite Hint; apply at_map) Hbv) as HR.
        apply (f_equal QcR) in A. rewrite !QcR_mult, QcR_opp, QcR_minus in A. fold m in A. cbn [cx_mesh in_reals] in HR. fold m in HR. rewrite <- HR in A. rewrite Hint, at_map.
        pose proof (QcR_pos _ (vt_vol _ Hm i Hlt)) as HV. cbn [cx_mesh in_reals] in HV. fold m in HV.
        apply (Rmult_eq_reg_l (QcR (at0 (cellVolumes m) i))); [|lra]. unfold m in *. lra. }
      apply (IH (S k) h3 psi3 old3 z); try done.
      + rewrite (take_S_r _ _ _ Elk), <- app_assoc. done.
      + rewrite (take_S_r _ _ _ Elk), app_length, Lk. cbn. lia.
      + intros b Hb.
        destruct (Hco b Hb) as (q0 & bc & Hin & Hp & Hbc0).
        pose proof Hin as Hin0. unfold bcs_in_reals in Hin. apply elem_of_list_In, in_map_iff in Hin as ([q1 bq] & [= <- <-] & Hinq%elem_of_list_In).
        pose proof (g_met _ _ _ _ G4 b q1 _ Hb Hin0 Hp) as Hv. cbn [cx_mesh in_reals] in Hv.
        pose proof (fun x => Hbc q1 bq (Value b) x Hinq) as HP. cbn [vol_prescribes read] in HP. rewrite decide_True in HP by done.
        assert (Hrd : forall x, inl (B := Qc) <$> vf_value (ts_phi (f (S k))) !! b = Some (inl x) -> at0 (vf_value (ts_phi (f (S k)))) b = x).
        { intros x. unfold at0. destruct (vf_value (ts_phi (f (S k))) !! b); cbn; congruence. }
        destruct bq as [v|g| | |]; cbn [bc_in_reals] in *; try done.
        * rewrite Hv. by rewrite (Hrd v (HP _ eq_refl)).
        * rewrite Hv, Hint3, at_map. f_equal. symmetry. apply Hrd. rewrite (HP _ eq_refl). f_equal. f_equal.
          assert (g = 0%Qc) as ->. { apply Qcle_antisym; apply Qcnot_lt_le; intros Hg; [apply QcR_pos in Hg|apply QcR_neg_lt in Hg]; lra. }
          unfold vadd, vscale, Qc_value, at_face_cell. fold Qc_value. change (@atV Qc Qc_value) with at0. ring.
        * rewrite Hv, Hint3, at_map. f_equal. symmetry. apply Hrd. by rewrite (HP _ eq_refl). }
  destruct Hr as [([h3 [x ox]] & Ha & ->)|[(x & Ha & _)|[[Ha _]|[Ha _]]]]; destruct (Hloop 0%nat l h _ _ _ eq_refl eq_refl
    ltac:(split; [apply (fc_state _ _ _ _ _ _ _ _ _ Hcase)|done|done]) Hh ltac:(rewrite F0; done) ltac:(intros b Hb; rewrite F0; apply at_map) Ha) as (h4 & x4 & ox4 & E4 & Hx); try done.
  injection E4 as <- <- <-. exists x, ox, (f (length l)). done.
Qed.
Print Assumptions C124_exact_program.

(** A case: the two explicit steps of C95_instance. *)
Lemma QcR_int k : QcR (Q2Qc (inject_Z k)) = IZR k.
Proof.
  unfold QcR. cbn. rewrite (Qred_identity (inject_Z k)); [|cbn; apply Z.gcd_1_r]. cbn. lra.
Qed.
Lemma QcR_three : QcR (Q2Qc 3) = 3. Proof. exact (QcR_int 3). Qed.
Lemma QcR_five : QcR (Q2Qc 5) = 5. Proof. exact (QcR_int 5). Qed.
Lemma QcR_seven : QcR (Q2Qc 7) = 7. Proof. exact (QcR_int 7). Qed.
Lemma caseQ p : float_case p (in_reals cxD) (bcs_in_reals bcsT) (schemesD "forwardEuler") 0 0 7
  (field_in_reals (ts_phi (stD x0D))) (map QcR (vf_int (ts_phi (stD x0D)))).
Proof.
  pose proof (fun k => int_format k p) as IF.
  split.
  - split; [apply fork3_topology|]. repeat (split; [done|]). repeat constructor; unfold patch_ok; cbn; lia.
  - intros i j a b Hi Hj Hne x Hx Hx'. destruct i as [|[|i]], j as [|[|j]]; cbn in Hi, Hj; try done; injection Hi as <-; injection Hj as <-; unfold in_patch in *; cbn in *; lia.
  - split; [|done]. repeat split; done.
  - done.
  - done.
  - cbn [in_reals cx_surf cxD]. rewrite decide_True by done.
    repeat (apply Forall_cons; split); try apply Forall_nil; try done; rewrite ?QcR_opp, QcR_1; try apply (IF 1%Z); try apply format_opp, (IF 1%Z); done.
  - assert (scalar_format p (QcR 1%Qc) /\ 0 <= QcR 1%Qc <= 1) by (rewrite QcR_1; split; [by apply (IF 1%Z)|lra]).
    repeat (apply Forall_cons; split; [done|]). by apply Forall_nil.
  - intros f Hf. cbn in Hf. destruct f as [|[|[|[|f]]]]; try lia; reflexivity.
  - eexists. vm_compute. reflexivity.
  - cells_3; apply Qc_is_canon; vm_compute; reflexivity.
  - cells_3; cbn [field_in_reals vf_int ts_phi stD]; rewrite at_map; unfold at0; cbn [lookup list_lookup default from_option x0D]; unfold Datatypes.id;
      rewrite ?QcR_1, ?QcR_three, ?QcR_five; (split; [apply (IF 1%Z) + apply (IF 5%Z) + apply (IF 3%Z); done|rewrite Rabs_right by lra; lra]).
  - intros b Hb. cbn in Hb. destruct b as [|[|b]]; try lia.
    + exists (Patch 0 0 1), (FixedValue (QcR (Q2Qc 7))). split; [left|]. split; [cbv; lia|]. split; [vm_compute; discriminate|].
      rewrite QcR_seven. split; [by apply (IF 7%Z)|]. rewrite Rabs_right by lra; lra.
    + exists (Patch 1 1 2), (FixedGradient (QcR 0%Qc)). split; [right; left|]. split; [cbv; lia|]. exact QcR_0.
  - intros b q bc Hb Hin Hp. cbn in Hb. apply elem_of_cons in Hin as [[= -> ->]|Hin%elem_of_list_singleton]; [|injection Hin as -> ->];
      unfold in_patch in Hp; cbn in Hp; destruct b as [|[|b]]; try lia; cbn [fst snd bc_in_reals field_in_reals ts_phi stD vf_value in_reals cx_mesh];
      rewrite at_map; try done.
Qed.

Example C124_exact_program_instance : forall ex,
  let l := [(0, Q2Qc (1 # 2)); (Q2Qc (1 # 2), Q2Qc (1 # 2))]%Qc in
  let phi := field_in_reals (ts_phi (stD x0D)) in
  explicit_case cxD bcsT (schemesD "forwardEuler") 0 0 (stD x0D) /\ old_of (stD x0D) = vf_int (ts_phi (stD x0D)) /\
  float_case Double (in_reals cxD) (bcs_in_reals bcsT) (schemesD "forwardEuler") 0 0 7 phi (vf_int phi) /\
  exists x oldx, exact_run ex true (in_reals cxD) 0 (bcs_in_reals bcsT) (schemesD "forwardEuler") 0 (map snd l) phi (vf_int phi) (Ok (x, oldx)) /\
    vf_int x = [9 / 2; 13 / 2; 5 / 2].
Proof.
  intros ex l phi. destruct C95_instance as [Hq (st' & Hs & Hv & _)]. pose proof (caseQ Double) as HF.
  split; [done|]. split; [done|]. split; [exact HF|].
  destruct (exact_runs _ _ _ _ _ _ _ _ _ HF ex true (map snd l)) as [r Hr].
  destruct (C124_exact_program Double cxD bcsT solve_exactly (schemesD "forwardEuler") [] 0 0 7 (stD x0D) l Hq eq_refl HF ex true true r (Ok st') Hr) as (x & ox & st2 & -> & E & Hx).
  { by apply Hs. }
  injection E as <-. exists x, ox. split; [exact Hr|]. rewrite Hx, Hv. cbn [map].
  assert (E9 : QcR (Q2Qc (9 # 2)) = 9 / 2) by (unfold QcR; change (IZR 9 / IZR 2 = 9 / 2); done).
  assert (E13 : QcR (Q2Qc (13 # 2)) = 13 / 2) by (unfold QcR; change (IZR 13 / IZR 2 = 13 / 2); done).
  assert (E5 : QcR (Q2Qc (5 # 2)) = 5 / 2) by (unfold QcR; change (IZR 5 / IZR 2 = 5 / 2); done).
  by rewrite E9, E13, E5.
Qed.
