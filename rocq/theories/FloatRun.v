(** C124: specification of the distance between a run of explicit upwind transport
    in float or double and the run of the same program in exact arithmetic, and
    what one cell does in a step. *)
From Coq Require Import Reals Lra Psatz Qcabs Qreals.
From Verif Require Import Base Dict Registry Exec Value Mesh MeshSpec MeshProofs Coeff FV FVSpec FVProofs FVAnyArith Properties_AnyArith
  Assembly Boundary Properties_Boundary Dsl FrontEnd Transport Properties_CoNum TimeAny TimeAnyProofs Properties_Float FloatFaces FloatTotal Properties_FloatFaces.
Local Open Scope R_scope.

(** * Specification *)

Notation value_at := (@atV R real_value).

(** What the roundings of one step of length [dt] can add to the error of cell
    [c] when no value is larger than [M]. *)
Definition cell_defect (p : precision) (m : mesh) (flux : list Qc) (dt : Qc) (M : R) (c : nat) : R :=
  u p * M + (1 + u p) * ((1 + u p) * (QcR dt *
      total_bound p 4 (length (faces_around m c)) 0 (QcR (1 / at0 (cellVolumes m) c)%Qc)
        (M * sum_around m c (fun f => Rabs (QcR (at0 flux f))))
        (sum_around m c (fun f => (2 * (1 + u p) ^ 2 * Rabs (QcR (at0 flux f)) + 1) * eta p)))
    + 2 * u p * M + eta p).

(** The boundary values are the prescribed ones, or where a zero gradient is
    prescribed those of the cells. *)
Definition conditions_met (m : mesh) (bcs : list (patch * volBC R)) (phi : volField R) : Prop :=
  forall b p bc, (b < nBoundaryFaces m)%nat -> (p, bc) ∈ bcs -> in_patch p b ->
    match bc with
    | FixedValue v => value_at (vf_value phi) b = v
    | _ => value_at (vf_value phi) b = value_at (vf_int phi) (atn (bFaceCells (bmesh m)) b)
    end.
(** Every boundary face has a value no larger than [M] prescribed where no fluid
    leaves, or a zero gradient; all are numbers of the precision. *)
Definition float_conditions (p : precision) (m : mesh) (flux : list Qc) (M : R) (bcs : list (patch * volBC R)) : Prop :=
  forall b, (b < nBoundaryFaces m)%nat -> exists q bc, (q, bc) ∈ bcs /\ in_patch q b /\
    match bc with
    | FixedValue v => (at0 flux (nInternalFaces m + b)%nat <= 0)%Qc /\ scalar_format p v /\ Rabs v <= M
    | FixedGradient g => g = 0
    | Extrapolated => True
    | Calculated | EmptyBC => False
    end.

(** * What one cell does *)

Lemma QcR_neg_lt q : (q < 0)%Qc -> QcR q < 0.
Proof. intros Hq. rewrite <- QcR_0, !QcR_Q2R. by apply Qreals.Qlt_Rlt. Qed.
Lemma QcR_lt_neg q : QcR q < 0 -> (q < 0)%Qc.
Proof. intros Hq. rewrite <- QcR_0, !QcR_Q2R in Hq. by apply Qreals.Rlt_Qlt. Qed.
Lemma QcR_pos q : (0 < q)%Qc -> 0 < QcR q.
Proof. intros Hq. rewrite <- QcR_0, !QcR_Q2R. by apply Qreals.Qlt_Rlt. Qed.
Lemma QcR_abs q : QcR (Qcabs q) = Rabs (QcR q).
Proof.
  destruct (Qclt_le_dec q 0) as [H|H].
  - rewrite Qcabs_neg by (by apply Qclt_le_weak). pose proof (QcR_neg_lt q H). rewrite QcR_opp, Rabs_left by lra. done.
  - rewrite Qcabs_pos by done. pose proof (QcR_le _ _ H) as H'. rewrite QcR_0 in H'. rewrite Rabs_right by lra. done.
Qed.
Lemma QcR_inv q : (0 < q)%Qc -> QcR (1 / q)%Qc = / QcR q.
Proof.
  intros Hq. pose proof (QcR_pos q Hq).
  assert (QcR (1 / q)%Qc * QcR q = 1); [|apply Rmult_eq_reg_r with (QcR q); lra || (rewrite H0; field; lra)].
  rewrite <- QcR_mult, <- QcR_1. f_equal. field. intros ->. by apply Qclt_not_eq in Hq.
Qed.

Global Instance real_laws : @ValueLaws R real_value.
Proof.
  split; unfold vadd, vneg, vzero, vscale, real_value; intros.
  - ring.
  - ring.
  - ring.
  - ring.
  - ring.
  - rewrite QcR_plus. ring.
  - rewrite QcR_mult. ring.
  - rewrite QcR_1. ring.
Qed.

Lemma QcR_vsum_over n (f : nat -> Qc) : QcR (vsum_over n f) = @vsum_over R real_value n (fun i => QcR (f i)).
Proof.
  unfold vsum_over. generalize (seq 0 n). intros l. induction l as [|a l IH]; [apply QcR_0|].
  cbn [map]. change (vsum (f a :: map f l)) with (f a + vsum (map f l))%Qc. rewrite QcR_plus, IH. done.
Qed.
Lemma QcR_if (P : Prop) `{Decision P} a : QcR (if decide P then a else 0%Qc) = if decide P then QcR a else 0.
Proof. destruct (decide P); [done|apply QcR_0]. Qed.
Lemma real_sum_ext n (f g : nat -> R) : (forall i, f i = g i) -> @vsum_over R real_value n f = @vsum_over R real_value n g.
Proof. intros E. unfold vsum_over. f_equal. apply map_ext. done. Qed.

(** The pairs (signed flux, face value) around a cell. *)
Definition signed (m : mesh) (c : nat) (F v : nat -> R) : list (R * R) :=
  map (fun f => (F f, v f)) (filter (fun f => atn (faceOwner m) f = c) (seq 0 (nInternalFaces m))) ++
  map (fun f => (- F f, v f)) (filter (fun f => atn (faceNeighbour m) f = c) (seq 0 (nInternalFaces m))) ++
  map (fun b => (F (nInternalFaces m + b)%nat, v (nInternalFaces m + b)%nat)) (filter (fun b => atn (bFaceCells (bmesh m)) b = c) (seq 0 (nBoundaryFaces m))).
Definition suma (l : list (R * R)) := sumR (map fst l).
Definition sumaa (l : list (R * R)) := sumR (map (fun a => Rabs a.1) l).
Definition sumav (l : list (R * R)) := sumR (map (fun a => a.1 * a.2) l).

Lemma signed_sum l x d : 0 <= d -> (forall a, a ∈ l -> (0 < a.1 -> a.2 = x) /\ (a.1 < 0 -> Rabs a.2 <= d)) ->
  exists I W, 0 <= I /\ sumaa l = suma l + 2 * I /\ sumav l = x * (suma l + I) - W /\ Rabs W <= d * I.
Proof.
  intros Hd. induction l as [|[a v] l IH]; intros Hl.
  - exists 0, 0. cbn. rewrite Rabs_R0. repeat split; lra.
  - destruct IH as (I & W & HI & E1 & E2 & HW); [intros; apply Hl; by right|].
    destruct (Hl (a, v)) as [Hp Hn]; [by left|]. cbn [fst snd] in *.
    unfold suma, sumaa, sumav, sumR in *. cbn [map foldr fst snd].
    destruct (Rtotal_order a 0) as [Ha|[->|Ha]].
    + exists (I - a), (W - a * v). rewrite Rabs_left by done. split; [lra|]. split; [lra|]. split; [rewrite E2; ring|].
      pose proof (Hn Ha) as Hv. pose proof (Rabs_triang W (- (a * v))) as T. rewrite Rabs_Ropp, Rabs_mult, (Rabs_left a) in T by done.
      pose proof (Rmult_le_compat_l (- a) _ _ ltac:(lra) Hv). unfold Rminus at 1. lra.
    + exists I, W. rewrite Rabs_R0. repeat split; try lra.
    + exists I, W. rewrite Rabs_right by lra. rewrite (Hp Ha). split; [done|]. split; [lra|]. split; [rewrite E2; ring|done].
Qed.
Lemma signed_stable l x d k : 0 <= d -> 0 <= k -> Rabs x <= d -> suma l = 0 -> k * sumaa l <= 2 ->
  (forall a, a ∈ l -> (0 < a.1 -> a.2 = x) /\ (a.1 < 0 -> Rabs a.2 <= d)) -> Rabs (x - k * sumav l) <= d.
Proof.
  intros Hd Hk Hx H0 Hc Hl. destruct (signed_sum l x d Hd Hl) as (I & W & HI & E1 & E2 & HW). rewrite H0 in *.
  rewrite E1 in Hc. rewrite E2. replace (x - k * (x * (0 + I) - W)) with (x * (1 - k * I) + k * W) by ring.
  pose proof (Rabs_triang (x * (1 - k * I)) (k * W)) as T. rewrite !Rabs_mult, (Rabs_right (1 - k * I)), (Rabs_right k) in T by lra.
  pose proof (Rmult_le_compat_r (1 - k * I) _ _ ltac:(lra) Hx). pose proof (Rmult_le_compat_l k _ _ Hk HW). lra.
Qed.

Section cell.
  Context (m : mesh) (Hm : valid_topology m) (flux : list Qc).
  Notation F := (fun f => QcR (at0 flux f)).
  Lemma signed_balance c (v : nat -> R) : @cell_balance R real_value m (fun f => F f * v f) c = sumav (signed m c F v).
  Proof.
    rewrite cell_balance_real. unfold sumav, signed. rewrite !map_app, !sumR_app, !map_map. cbn [fst snd].
    assert (forall l, sumR (map (fun f => - F f * v f) l) = - sumR (map (fun f => F f * v f) l)) as ->; [|ring].
    intros l. induction l; cbn; [lra|]. unfold sumR in *. rewrite IHl. ring.
  Qed.
  Lemma signed_flux c (v : nat -> R) : suma (signed m c F v) = QcR (cell_balance m (at0 flux) c).
  Proof.
    unfold suma, signed. rewrite !map_app, !sumR_app, !map_map. cbn [fst].
    unfold cell_balance, vsub. unfold vadd, vneg, Qc_value. rewrite !QcR_plus, QcR_opp, !QcR_vsum_over.
    rewrite !(real_sum_ext _ (fun i => QcR (if decide _ then _ else _)) _ (fun i => QcR_if _ _)).
    rewrite (vsum_over_filter (nInternalFaces m) (fun f => atn (faceOwner m) f = c)), (vsum_over_filter (nInternalFaces m) (fun f => atn (faceNeighbour m) f = c)),
      (vsum_over_filter (nBoundaryFaces m) (fun b => atn (bFaceCells (bmesh m)) b = c)).
    assert (forall l, sumR (map (fun f => - F f) l) = - sumR (map F l)) as ->; [|unfold vscale, real_value; ring].
    intros l. induction l; cbn; [lra|]. unfold sumR in *. rewrite IHl. ring.
  Qed.
  Lemma signed_through c (v : nat -> R) : sumaa (signed m c F v) = QcR (flux_through m flux c).
  Proof.
    unfold sumaa, signed. rewrite !map_app, !sumR_app, !map_map. cbn [fst].
    unfold flux_through. rewrite !QcR_plus, !QcR_vsum_over.
    rewrite !(real_sum_ext _ (fun i => QcR (if decide _ then _ else _)) _ (fun i => QcR_if _ _)).
    rewrite (vsum_over_filter (nInternalFaces m) (fun f => atn (faceOwner m) f = c)), (vsum_over_filter (nInternalFaces m) (fun f => atn (faceNeighbour m) f = c)),
      (vsum_over_filter (nBoundaryFaces m) (fun b => atn (bFaceCells (bmesh m)) b = c)).
    rewrite <- Rplus_assoc. f_equal; [f_equal|].
    - f_equal. apply map_ext. intros. by rewrite QcR_abs.
    - f_equal. apply map_ext. intros. by rewrite QcR_abs, Rabs_Ropp.
    - f_equal. apply map_ext. intros. by rewrite QcR_abs.
  Qed.

  (** A cell whose value [x] is at most [d], like the values [v] of the faces where
      fluid enters, and the face values where it leaves being its own. *)
  Lemma cell_stable dt c x d (v : nat -> R) : (c < nCells m)%nat -> divergence_free m flux -> (0 < dt)%Qc -> (cell_courant m flux dt c <= 1)%Qc ->
    (forall f, (f < nInternalFaces m)%nat -> atn (faceOwner m) f = c -> (0 < F f -> v f = x) /\ (F f < 0 -> Rabs (v f) <= d)) ->
    (forall f, (f < nInternalFaces m)%nat -> atn (faceNeighbour m) f = c -> (F f < 0 -> v f = x) /\ (0 < F f -> Rabs (v f) <= d)) ->
    (forall b, (b < nBoundaryFaces m)%nat -> atn (bFaceCells (bmesh m)) b = c ->
      (0 < F (nInternalFaces m + b)%nat -> v (nInternalFaces m + b)%nat = x) /\ (F (nInternalFaces m + b)%nat < 0 -> Rabs (v (nInternalFaces m + b)%nat) <= d)) ->
    Rabs x <= d ->
    Rabs (x - QcR dt * (QcR (1 / at0 (cellVolumes m) c)%Qc * @cell_balance R real_value m (fun f => F f * v f) c)) <= d.
  Proof.
    intros Hc Hdf Hdt Hco Ho Hn Hb Hx. pose proof (vt_vol _ Hm c Hc) as HV. pose proof (QcR_pos _ HV). pose proof (QcR_pos _ Hdt).
    rewrite signed_balance, <- Rmult_assoc. apply signed_stable.
    - pose proof (Rabs_pos x). lra.
    - rewrite QcR_inv by done. apply Rmult_le_pos; [lra|]. left. by apply Rinv_0_lt_compat.
    - done.
    - rewrite signed_flux, (Hdf c Hc). apply QcR_0.
    - rewrite signed_through, QcR_inv by done. apply QcR_le in Hco. unfold cell_courant in Hco. rewrite QcR_1 in Hco.
      unfold Qcdiv in Hco. rewrite !QcR_mult in Hco.
      replace (QcR (/ at0 (cellVolumes m) c)%Qc) with (/ QcR (at0 (cellVolumes m) c)) in Hco
        by (rewrite <- QcR_inv by done; f_equal; unfold Qcdiv; ring).
      assert (E2 : QcR (/ Q2Qc 2)%Qc = / 2) by (unfold QcR; change (IZR 1 / IZR 2 = / 2); lra). rewrite E2 in Hco. lra.
    - intros a Ha. unfold signed in Ha. rewrite !elem_of_app in Ha.
      destruct Ha as [Ha|[Ha|Ha]]; apply elem_of_list_In, in_map_iff in Ha as (f & <- & Hf%elem_of_list_In); apply elem_of_list_filter in Hf as [Hf1 Hf2%elem_of_seq]; cbn [fst snd].
      + apply Ho; [lia|done].
      + destruct (Hn f ltac:(lia) Hf1) as [H1 H2]. split; intros; [apply H1|apply H2]; lra.
      + apply Hb; [lia|done].
  Qed.
End cell.

(** * The case *)

(** Mesh, fluxes, weights, dictionaries and initial values of a program with
      imp::ddt(T) + exp::div(flux, T)
    fit: the upwind scheme, as much fluid leaves every cell as enters it, all
    numbers are of the precision and none is larger than [M]. *)
Record float_case (p : precision) (cx : ctx R) (bcs : list (patch * volBC R)) (fvSchemes : dict) (flux n : nat) (M : R)
  (phi : volField R) (old : list R) : Prop := {
  fc_setup : setup_any cx bcs;
  fc_disjoint : pairwise_disjoint bcs;
  fc_state : state_any cx phi old;
  fc_old : old = vf_int phi;
  fc_flux : length (cx_surf cx flux) = nFaces (cx_mesh cx);
  fc_flux_scalars : scalars p (cx_surf cx flux);
  fc_weights : weights_ok p (cx_weights cx);
  fc_boundary_weights : boundary_weights_1 (cx_mesh cx) (cx_weights cx);
  fc_upwind : exists s, (div_build (cx_surfName cx flux) (cx_volName cx n) (IDict fvSchemes)).1 = Ok (s, "upwind"%string);
  fc_balance : divergence_free (cx_mesh cx) (cx_surf cx flux);
  fc_cells : forall c, (c < nCells (cx_mesh cx))%nat -> scalar_format p (value_at (vf_int phi) c) /\ Rabs (value_at (vf_int phi) c) <= M;
  fc_conditions : float_conditions p (cx_mesh cx) (cx_surf cx flux) M bcs;
  fc_met : conditions_met (cx_mesh cx) bcs phi;
}.
(** Time steps that are numbers of the precision and for which no cell's Courant
    number is larger than 1. *)
Definition float_steps (p : precision) (cx : ctx R) (flux : nat) (dts : list Qc) : Prop := forall dt, dt ∈ dts ->
  (0 < dt)%Qc /\ scalar_format p (QcR dt) /\
  forall c, (c < nCells (cx_mesh cx))%nat -> (cell_courant (cx_mesh cx) (cx_surf cx flux) dt c <= 1)%Qc.

(** * The program *)

(** Scalars as field elements. *)
Definition scalar_tag : ValueTag R := VScalar.

(**   Expression eqn = imp::ddt(T) + exp::div(flux, T);
      while (...) solve(eqn, T, t, dt, fvSchemes, fvSolution);
    in the arithmetic [arith], with the forward Euler integrator; T is field number
    [n], [dts] the step lengths, [ex] the executor, [dbg] a debug build.  [r]: the
    field and its old-time field, or how the program ends. *)
Definition upwind_run (arith : ValueType R) (ex : executor) (dbg : bool) (cx : ctx R) (n : nat) (bcs : list (patch * volBC R))
  (fvSchemes : dict) (flux : nat) (dts : list Qc) (phi : volField R) (old : list R) (r : outcome (volField R * list R)) : Prop :=
  exists e h, program (V := R) [ImpDdt n; ExpDiv flux n] (EOpPlus (TermT (TVar 0)) (TermS (SVar 0))) = Ok (e, h) /\
    rseq (@time_loop_any R arith scalar_tag dbg (on_executor ex cx) n bcs fvSchemes e dts h phi old) (fun a r' => r' = Ok a.2) r.
Definition float_run (p : precision) := upwind_run (scalar_value p).
Definition exact_run := upwind_run real_value.
