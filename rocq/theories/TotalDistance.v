(** C126: the total distance between two fields, and why transport and diffusion
    steps do not increase it. *)
From Coq Require Import Qcabs.
From Verif Require Import Base Par Exec Value Kernel Mesh MeshSpec MeshProofs Coeff FV FVSpec FVProofs Assembly AssemblySpec Sparsity SparsitySpec AssemblyProps Dict Boundary Properties_Boundary Properties_CoNum Transport TransportProofs Diffusion DiffusionProofs QcLra.
Local Open Scope Qc_scope.

(** * Specification *)
Section spec.
  Context (m : mesh).
  (** Sum over the cells of volume times absolute difference. *)
  Definition total_distance (x y : list Qc) : Qc :=
    vsum_over (nCells m) (fun c => at0 (cellVolumes m) c * Qcabs (at0 x c - at0 y c)).
  (** Every boundary face has a value prescribed, or a gradient; for transport the
      value where fluid enters and the gradient where it leaves. *)
  Definition all_prescribed (bcs : list (patch * volBC Qc)) : Prop := forall b, (b < nBoundaryFaces m)%nat ->
    exists p bc, (p, bc) ∈ bcs /\ in_patch p b /\
      match bc with FixedValue _ | FixedGradient _ | Extrapolated => True | Calculated | EmptyBC => False end.
  Definition flow_prescribed (flux : list Qc) (bcs : list (patch * volBC Qc)) : Prop := forall b, (b < nBoundaryFaces m)%nat ->
    exists p bc, (p, bc) ∈ bcs /\ in_patch p b /\
      match bc with
      | FixedValue _ => at0 flux (nInternalFaces m + b)%nat <= 0
      | FixedGradient _ | Extrapolated => 0 <= at0 flux (nInternalFaces m + b)%nat
      | Calculated | EmptyBC => False
      end.
  (** The same boundary value, or the same step from the cell to the boundary. *)
  Definition same_value (phi psi : volField Qc) (b : nat) : Prop := at0 (vf_value phi) b = at0 (vf_value psi) b.
  Definition same_step (phi psi : volField Qc) (b : nat) : Prop :=
    at0 (vf_value phi) b - at0 (vf_int phi) (atn (bFaceCells (bmesh m)) b) = at0 (vf_value psi) b - at0 (vf_int psi) (atn (bFaceCells (bmesh m)) b).
  (** Two fields whose boundary values meet the same conditions. *)
  Definition boundary_alike (phi psi : volField Qc) : Prop := forall b, (b < nBoundaryFaces m)%nat -> same_value phi psi b \/ same_step phi psi b.
  Definition boundary_alike_flow (flux : list Qc) (phi psi : volField Qc) : Prop := forall b, (b < nBoundaryFaces m)%nat ->
    (at0 flux (nInternalFaces m + b)%nat < 0 -> same_value phi psi b) /\ (0 < at0 flux (nInternalFaces m + b)%nat -> same_step phi psi b).
End spec.

(** * Positive parts *)
Definition pos (a : Qc) : Qc := if Qclt_le_dec a 0 then 0 else a.
Lemma pos_nonneg a : 0 <= pos a.
Proof. unfold pos. destruct (Qclt_le_dec a 0); [apply Qcle_refl|done]. Qed.
Lemma pos_diff a b : pos (a - b) - pos (b - a) = a - b.
Proof. unfold pos. destruct (Qclt_le_dec (a - b) 0), (Qclt_le_dec (b - a) 0); revert q q0; qc_lra. Qed.
Lemma pos_total a b : pos (a - b) + pos (b - a) = Qcabs (a - b).
Proof.
  unfold pos. destruct (Qclt_le_dec (a - b) 0) as [H|H].
  - rewrite Qcabs_neg by (by apply Qclt_le_weak). destruct (Qclt_le_dec (b - a) 0); revert H q; qc_lra.
  - rewrite Qcabs_pos by done. destruct (Qclt_le_dec (b - a) 0); revert H q; qc_lra.
Qed.
Lemma abs_le a b : a <= b -> - a <= b -> Qcabs a <= b.
Proof. intros H1 H2. destruct (Qclt_le_dec a 0); [rewrite Qcabs_neg by (by apply Qclt_le_weak)|rewrite Qcabs_pos by done]; done. Qed.

Definition tabulate (n : nat) (f : nat -> Qc) : list Qc := map f (seq 0 n).
Lemma at0_tabulate n f i : (i < n)%nat -> at0 (tabulate n f) i = f i.
Proof. intros Hi. unfold at0, tabulate. change (map ?f ?l) with (f <$> l). by rewrite list_lookup_fmap, lookup_seq_lt by done. Qed.
Lemma at_le_sum n (f : nat -> Qc) i : (i < n)%nat -> (forall j, (j < n)%nat -> 0 <= f j) -> f i <= vsum_over n f.
Proof.
  intros Hi Hf. rewrite <- (vsum_over_single n i (f i) Hi). apply sum_le. intros j Hj.
  destruct (decide (j = i)) as [->|]; [apply Qcle_refl|by apply Hf].
Qed.

Section explicit.
  Context (m : mesh) (Hm : valid_topology m).
  (** By how much [phi] exceeds [psi]. *)
  Definition excess (phi psi : volField Qc) : volField Qc :=
    VolField (tabulate (nCells m) (fun c => pos (at0 (vf_int phi) c - at0 (vf_int psi) c)))
             (tabulate (nBoundaryFaces m) (fun b => pos (at0 (vf_value phi) b - at0 (vf_value psi) b))) [] [] [].
  Lemma excess_int phi psi c : (c < nCells m)%nat -> at0 (vf_int (excess phi psi)) c = pos (at0 (vf_int phi) c - at0 (vf_int psi) c).
  Proof. intros Hc. cbn [excess vf_int]. by apply at0_tabulate. Qed.
  Lemma excess_value phi psi b : (b < nBoundaryFaces m)%nat -> at0 (vf_value (excess phi psi)) b = pos (at0 (vf_value phi) b - at0 (vf_value psi) b).
  Proof. intros Hb. cbn [excess vf_value]. by apply at0_tabulate. Qed.
  Definition top (phi psi : volField Qc) : Qc :=
    vsum_over (nCells m) (at0 (vf_int (excess phi psi))) + vsum_over (nBoundaryFaces m) (at0 (vf_value (excess phi psi))).
  Lemma excess_range phi psi : cells_between m 0 (top phi psi) (vf_int (excess phi psi)) /\ boundary_within m 0 (top phi psi) (excess phi psi).
  Proof using.
    clear. assert (N1 : forall c, (c < nCells m)%nat -> 0 <= at0 (vf_int (excess phi psi)) c) by (intros c Hc; rewrite excess_int by done; apply pos_nonneg).
    assert (N2 : forall b, (b < nBoundaryFaces m)%nat -> 0 <= at0 (vf_value (excess phi psi)) b) by (intros b Hb; rewrite excess_value by done; apply pos_nonneg).
    pose proof (sum_nonneg _ _ N1) as S1. pose proof (sum_nonneg _ _ N2) as S2. unfold top. split.
    - intros c Hc. split; [by apply N1|]. pose proof (at_le_sum _ _ c Hc N1). revert H S2.
      generalize (at0 (vf_int (excess phi psi)) c). generalize (vsum_over (nCells m) (at0 (vf_int (excess phi psi)))) (vsum_over (nBoundaryFaces m) (at0 (vf_value (excess phi psi)))). qc_lra.
    - intros b Hb. split; [by apply N2|]. pose proof (at_le_sum _ _ b Hb N2). revert H S1.
      generalize (at0 (vf_value (excess phi psi)) b). generalize (vsum_over (nCells m) (at0 (vf_int (excess phi psi)))) (vsum_over (nBoundaryFaces m) (at0 (vf_value (excess phi psi)))). qc_lra.
  Qed.
  Lemma total_as_contents phi psi : total_distance m (vf_int phi) (vf_int psi) = content m (vf_int (excess phi psi)) + content m (vf_int (excess psi phi)).
  Proof using.
    clear. unfold total_distance, content. change (?a + ?b) with (vadd a b). rewrite <- vsum_over_add. apply vsum_over_ext. intros c Hc.
    rewrite !excess_int by done. cbn [vadd Qc_value]. rewrite <- pos_total. ring.
  Qed.
  (** If a step takes the excesses to [d1] and [d2], both non-negative and with no
      larger content, and the difference of the fields to the difference of these,
      the total distance does not grow. *)
  Lemma split_distance phi psi x y d1 d2 : 
    (forall c, (c < nCells m)%nat -> at0 x c - at0 y c = at0 d1 c - at0 d2 c) ->
    (forall c, (c < nCells m)%nat -> 0 <= at0 d1 c) -> (forall c, (c < nCells m)%nat -> 0 <= at0 d2 c) ->
    content m d1 <= content m (vf_int (excess phi psi)) -> content m d2 <= content m (vf_int (excess psi phi)) ->
    total_distance m x y <= total_distance m (vf_int phi) (vf_int psi).
  Proof using Hm.
    intros E N1 N2 C1 C2. rewrite total_as_contents.
    assert (H : total_distance m x y <= content m d1 + content m d2).
    { unfold total_distance, content. change (?a + ?b) with (vadd a b). rewrite <- vsum_over_add. apply sum_le. intros c Hc.
      cbn [vadd Qc_value]. rewrite (E c Hc). pose proof (vt_vol m Hm c Hc) as HV. apply Qclt_le_weak in HV.
      assert (A : Qcabs (at0 d1 c - at0 d2 c) <= at0 d1 c + at0 d2 c).
      { specialize (N1 c Hc). specialize (N2 c Hc). revert N1 N2. generalize (at0 d1 c) (at0 d2 c). intros a b Ha Hb. apply abs_le; revert Ha Hb; qc_lra. }
      pose proof (qc_mul_nonneg _ (at0 d1 c + at0 d2 c - Qcabs (at0 d1 c - at0 d2 c)) HV) as P.
      assert (P2 : 0 <= at0 d1 c + at0 d2 c - Qcabs (at0 d1 c - at0 d2 c)) by (revert A; generalize (Qcabs (at0 d1 c - at0 d2 c)) (at0 d1 c + at0 d2 c); qc_lra).
      apply P in P2. apply Qcle_minus_iff. eapply nonneg_eq; [exact P2|ring]. }
    revert H C1 C2. generalize (total_distance m x y) (content m d1) (content m d2) (content m (vf_int (excess phi psi))) (content m (vf_int (excess psi phi))). qc_lra.
  Qed.

  (** ** Upwind *)
  Section upwind.
    Context (flux weights : list Qc) (Hdiv : divergence_free m flux)
      (Hw : forall b, (b < nBoundaryFaces m)%nat -> at0 weights (nInternalFaces m + b) = 1).
    Lemma upwind_exists dt phi : exists x, advanced m flux weights dt phi x.
    Proof using Hm.
      exists (tabulate (nCells m) (fun c => at0 (vf_int phi) c - dt * cell_balance m (fun f => at0 flux f * face_value m Upwind phi flux weights f) c / at0 (cellVolumes m) c)).
      split; [unfold tabulate; by rewrite map_length, seq_length|]. intros c Hc. rewrite at0_tabulate by done.
      pose proof (vt_vol m Hm c Hc) as HV. field. intros E0. rewrite E0 in HV. by apply Qclt_not_eq in HV.
    Qed.
    Lemma upwind_split phi psi f : (f < nFaces m)%nat ->
      face_value m Upwind phi flux weights f - face_value m Upwind psi flux weights f =
      face_value m Upwind (excess phi psi) flux weights f - face_value m Upwind (excess psi phi) flux weights f.
    Proof using Hm.
      intros Hf. rewrite (vt_faces m Hm) in Hf. unfold face_value, at_neighbour, at_owner. change (@atV Qc Qc_value) with at0. cbn [vscale Qc_value].
      destruct (decide (f < nInternalFaces m)%nat) as [Hi|Hi].
      - pose proof (owner_lt m Hm f Hi). pose proof (vt_nei m Hm f Hi). destruct (Qclt_le_dec (at0 flux f) 0); rewrite !excess_int by done; by rewrite pos_diff.
      - rewrite !excess_value by lia.
        transitivity (at0 weights f * (at0 (vf_value phi) (f - nInternalFaces m) - at0 (vf_value psi) (f - nInternalFaces m))); [ring|].
        pose proof (pos_diff (at0 (vf_value phi) (f - nInternalFaces m)) (at0 (vf_value psi) (f - nInternalFaces m))) as E. revert E.
        generalize (pos (at0 (vf_value phi) (f - nInternalFaces m) - at0 (vf_value psi) (f - nInternalFaces m))) (pos (at0 (vf_value psi) (f - nInternalFaces m) - at0 (vf_value phi) (f - nInternalFaces m))).
        intros p q <-. ring.
    Qed.
    Lemma excess_boundary phi psi : boundary_alike_flow m flux phi psi -> boundary_values m flux 0 (top phi psi) (excess phi psi).
    Proof using Hm.
      intros Ha b Hb. destruct (excess_range phi psi) as [_ R]. split; [intros _; by apply R|]. intros Hp. destruct (Ha b Hb) as [_ E]. specialize (E Hp). unfold same_step in E.
      rewrite excess_value, excess_int by (done || by apply (vt_fc m Hm)). f_equal. revert E.
      generalize (at0 (vf_value phi) b) (at0 (vf_value psi) b) (at0 (vf_int phi) (atn (bFaceCells (bmesh m)) b)) (at0 (vf_int psi) (atn (bFaceCells (bmesh m)) b)). qc_lra.
    Qed.
    Lemma excess_outflow dt phi psi d : 0 < dt -> boundary_alike_flow m flux phi psi -> advanced m flux weights dt (excess phi psi) d ->
      content m d <= content m (vf_int (excess phi psi)).
    Proof using Hm Hw.
      intros Hdt Ha [_ Hx].
      pose proof (FVProofs.balance_total m Hm (V := Qc) (fun f => at0 flux f * face_value m Upwind (excess phi psi) flux weights f)) as Ht.
      assert (E : content m d = content m (vf_int (excess phi psi)) + - dt * vsum_over (nBoundaryFaces m) (fun b => at0 flux (nInternalFaces m + b)%nat * face_value m Upwind (excess phi psi) flux weights (nInternalFaces m + b))).
      { unfold content. rewrite <- Ht. match goal with |- _ = ?a + - dt * ?b => change (a + - dt * b) with (vadd a (vscale (- dt) b)) end.
        rewrite <- vsum_over_scale, <- vsum_over_add. apply vsum_over_ext. intros c Hc. cbn [vadd vscale Qc_value]. rewrite <- (Hx c Hc). ring. }
      assert (P : 0 <= vsum_over (nBoundaryFaces m) (fun b => at0 flux (nInternalFaces m + b)%nat * face_value m Upwind (excess phi psi) flux weights (nInternalFaces m + b))).
      { apply sum_nonneg. intros b Hb. unfold face_value. rewrite decide_False by lia. rewrite Hw by done. replace (nInternalFaces m + b - nInternalFaces m)%nat with b by lia.
        change (@atV Qc Qc_value) with at0. cbn [vscale Qc_value]. rewrite excess_value by done. destruct (Qclt_le_dec (at0 flux (nInternalFaces m + b)) 0) as [Hs|Hs].
        - destruct (Ha b Hb) as [Q _]. rewrite (Q Hs). replace (at0 (vf_value psi) b - at0 (vf_value psi) b) with 0 by ring.
          unfold pos. destruct (Qclt_le_dec 0 0); (eapply nonneg_eq; [apply Qcle_refl|ring]).
        - apply qc_mul_nonneg; [done|]. pose proof (pos_nonneg (at0 (vf_value phi) b - at0 (vf_value psi) b)). eapply nonneg_eq; [exact H|ring]. }
      rewrite E. apply Qcle_minus_iff. eapply nonneg_eq; [apply (qc_mul_nonneg _ _ (Qclt_le_weak _ _ Hdt) P)|ring].
    Qed.
    Lemma upwind_total dt phi psi x y : 0 < dt -> (forall c, (c < nCells m)%nat -> cell_courant m flux dt c <= 1) ->
      boundary_alike_flow m flux phi psi -> advanced m flux weights dt phi x -> advanced m flux weights dt psi y ->
      total_distance m x y <= total_distance m (vf_int phi) (vf_int psi).
    Proof using Hm Hw Hdiv.
      intros Hdt Hco Ha Hx Hy. destruct (upwind_exists dt (excess phi psi)) as (d1 & H1), (upwind_exists dt (excess psi phi)) as (d2 & H2).
      assert (Ha' : boundary_alike_flow m flux psi phi) by (intros b Hb; destruct (Ha b Hb) as [P Q]; unfold same_value, same_step in *; split; intros Hs; symmetry; [by apply P|by apply Q]).
      apply (split_distance phi psi x y d1 d2).
      - intros c Hc. destruct Hx as [_ Hx], Hy as [_ Hy], H1 as [_ H1], H2 as [_ H2]. specialize (Hx c Hc). specialize (Hy c Hc). specialize (H1 c Hc). specialize (H2 c Hc).
        rewrite excess_int in H1, H2 by done.
        assert (EB : cell_balance m (fun f => at0 flux f * face_value m Upwind phi flux weights f) c + - (1) * cell_balance m (fun f => at0 flux f * face_value m Upwind psi flux weights f) c =
          cell_balance m (fun f => at0 flux f * face_value m Upwind (excess phi psi) flux weights f) c + - (1) * cell_balance m (fun f => at0 flux f * face_value m Upwind (excess psi phi) flux weights f) c).
        { rewrite <- !balance_scaled, <- !balance_add. apply (balance_congr m Hm). intros f Hf. pose proof (upwind_split phi psi f Hf) as EF.
          transitivity (at0 flux f * (face_value m Upwind phi flux weights f - face_value m Upwind psi flux weights f)); [ring|]. rewrite EF. ring. }
        pose proof (pos_diff (at0 (vf_int phi) c) (at0 (vf_int psi) c)) as EP. pose proof (vt_vol m Hm c Hc) as HV. revert Hx Hy H1 H2 EB EP HV.
        generalize (cell_balance m (fun f => at0 flux f * face_value m Upwind phi flux weights f) c) (cell_balance m (fun f => at0 flux f * face_value m Upwind psi flux weights f) c)
          (cell_balance m (fun f => at0 flux f * face_value m Upwind (excess phi psi) flux weights f) c) (cell_balance m (fun f => at0 flux f * face_value m Upwind (excess psi phi) flux weights f) c)
          (pos (at0 (vf_int phi) c - at0 (vf_int psi) c)) (pos (at0 (vf_int psi) c - at0 (vf_int phi) c)).
        generalize (at0 (cellVolumes m) c) (at0 x c) (at0 y c) (at0 d1 c) (at0 d2 c) (at0 (vf_int phi) c) (at0 (vf_int psi) c).
        intros V a b u v s t B1 B2 B3 B4 p1 p2 Hx Hy H1 H2 EB EP HV.
        assert (HV0 : V <> 0) by (intros ->; by apply Qclt_not_eq in HV).
        assert (EV : V * (a - b) = V * (u - v)).
        { transitivity (V * (a - s) - V * (b - t) + V * (s - t)); [ring|]. rewrite Hx, Hy, <- EP.
          transitivity (- dt * (B1 + - (1) * B2) + V * (p1 - p2)); [ring|]. rewrite EB.
          transitivity (- dt * B3 - - dt * B4 + V * (p1 - p2)); [ring|]. rewrite <- H1, <- H2. ring. }
        transitivity (V * (a - b) / V); [field; done|]. rewrite EV. field; done.
      - destruct (excess_range phi psi) as [R1 _]. by apply (advanced_lower m Hm flux weights dt (excess phi psi) d1 0 (top phi psi)); try done; apply excess_boundary.
      - destruct (excess_range psi phi) as [R1 _]. by apply (advanced_lower m Hm flux weights dt (excess psi phi) d2 0 (top psi phi)); try done; apply excess_boundary.
      - by apply (excess_outflow dt).
      - by apply (excess_outflow dt).
    Qed.
  End upwind.

  (** ** Explicit diffusion *)
  Section diffusion.
    Context (dc : list Qc) (Hpos : face_positive m dc).
    Lemma gradient_split phi psi f : (f < nFaces m)%nat ->
      normal_gradient m phi dc f - normal_gradient m psi dc f = normal_gradient m (excess phi psi) dc f - normal_gradient m (excess psi phi) dc f.
    Proof using Hm.
      intros Hf. rewrite (vt_faces m Hm) in Hf. unfold normal_gradient, at_neighbour, at_owner, at_face_cell. change (@atV Qc Qc_value) with at0. unfold vsub. cbn [vscale vadd vneg Qc_value].
      destruct (decide (f < nInternalFaces m)%nat) as [Hi|Hi].
      - pose proof (owner_lt m Hm f Hi) as Ho. pose proof (vt_nei m Hm f Hi) as Hn. rewrite !excess_int by done.
        pose proof (pos_diff (at0 (vf_int phi) (atn (faceOwner m) f)) (at0 (vf_int psi) (atn (faceOwner m) f))) as E1.
        pose proof (pos_diff (at0 (vf_int phi) (atn (faceNeighbour m) f)) (at0 (vf_int psi) (atn (faceNeighbour m) f))) as E2.
        revert E1 E2.
        generalize (pos (at0 (vf_int phi) (atn (faceOwner m) f) - at0 (vf_int psi) (atn (faceOwner m) f))) (pos (at0 (vf_int psi) (atn (faceOwner m) f) - at0 (vf_int phi) (atn (faceOwner m) f)))
          (pos (at0 (vf_int phi) (atn (faceNeighbour m) f) - at0 (vf_int psi) (atn (faceNeighbour m) f))) (pos (at0 (vf_int psi) (atn (faceNeighbour m) f) - at0 (vf_int phi) (atn (faceNeighbour m) f))).
        intros p1 p2 p3 p4 E1 E2.
        match goal with |- ?k * (?a + - ?b) - ?k * (?c + - ?d) = _ => transitivity (k * ((a - c) - (b - d))); [ring|] end. rewrite <- E1, <- E2. ring.
      - pose proof (vt_fc m Hm (f - nInternalFaces m) ltac:(lia)) as Hc. rewrite !excess_int by done. rewrite !excess_value by lia.
        set (c := atn (bFaceCells (bmesh m)) (f - nInternalFaces m)) in *. set (b := (f - nInternalFaces m)%nat) in *.
        pose proof (pos_diff (at0 (vf_value phi) b) (at0 (vf_value psi) b)) as E1.
        pose proof (pos_diff (at0 (vf_int phi) c) (at0 (vf_int psi) c)) as E2.
        revert E1 E2.
        generalize (pos (at0 (vf_value phi) b - at0 (vf_value psi) b)) (pos (at0 (vf_value psi) b - at0 (vf_value phi) b))
          (pos (at0 (vf_int phi) c - at0 (vf_int psi) c)) (pos (at0 (vf_int psi) c - at0 (vf_int phi) c)).
        intros p1 p2 p3 p4 E1 E2.
        match goal with |- ?k * (?a + - ?b) - ?k * (?c + - ?d) = _ => transitivity (k * ((a - c) - (b - d))); [ring|] end. rewrite <- E1, <- E2. ring.
    Qed.
    Lemma excess_influx dt phi psi d : 0 <= dt -> boundary_alike m phi psi -> diffused_step m dc dt (excess phi psi) d ->
      content m d <= content m (vf_int (excess phi psi)).
    Proof using Hm Hpos.
      intros Hdt Ha Hx. rewrite (step_content m Hm dc dt _ d Hx).
      assert (P : 0 <= - boundary_influx m dc (excess phi psi)).
      { unfold boundary_influx. change (- vsum_over ?n ?f) with (vneg (vsum_over n f)). rewrite <- vsum_over_neg. apply sum_nonneg. intros b Hb. cbn [vneg Qc_value].
        destruct (Hpos (nInternalFaces m + b)%nat ltac:(rewrite (vt_faces m Hm); lia)) as [G1 G2]. pose proof (qc_mul_nonneg _ _ G1 G2) as G.
        pose proof (vt_fc m Hm b Hb) as Hc. rewrite excess_int, excess_value by done. set (c := atn (bFaceCells (bmesh m)) b) in *.
        assert (L : 0 <= pos (at0 (vf_int phi) c - at0 (vf_int psi) c) - pos (at0 (vf_value phi) b - at0 (vf_value psi) b)).
        { destruct (Ha b Hb) as [E|E]; [unfold same_value in E|unfold same_step in E; fold c in E].
          - rewrite E. replace (at0 (vf_value psi) b - at0 (vf_value psi) b) with 0 by ring. unfold pos at 2. destruct (Qclt_le_dec 0 0);
              (eapply nonneg_eq; [apply (pos_nonneg (at0 (vf_int phi) c - at0 (vf_int psi) c))|ring]).
          - replace (at0 (vf_value phi) b - at0 (vf_value psi) b) with (at0 (vf_int phi) c - at0 (vf_int psi) c); [eapply nonneg_eq; [apply Qcle_refl|ring]|].
            revert E. generalize (at0 (vf_value phi) b) (at0 (vf_value psi) b) (at0 (vf_int phi) c) (at0 (vf_int psi) c). qc_lra. }
        eapply nonneg_eq; [apply (qc_mul_nonneg _ _ G L)|ring]. }
      apply Qcle_minus_iff. eapply nonneg_eq; [apply (qc_mul_nonneg _ _ Hdt P)|ring].
    Qed.
    Lemma diffusion_total dt phi psi x y : 0 <= dt -> (forall c, (c < nCells m)%nat -> diffusion_number m dc dt c <= 1) ->
      boundary_alike m phi psi -> diffused_step m dc dt phi x -> diffused_step m dc dt psi y ->
      total_distance m x y <= total_distance m (vf_int phi) (vf_int psi).
    Proof using Hm Hpos.
      intros Hdt Hnum Ha Hx Hy. destruct (step_exists m Hm dc dt (excess phi psi)) as (d1 & H1), (step_exists m Hm dc dt (excess psi phi)) as (d2 & H2).
      assert (Ha' : boundary_alike m psi phi) by (intros b Hb; destruct (Ha b Hb) as [P|P]; [left|right]; unfold same_value, same_step in *; by symmetry).
      apply (split_distance phi psi x y d1 d2).
      - intros c Hc. destruct Hx as [_ Hx], Hy as [_ Hy], H1 as [_ H1], H2 as [_ H2]. specialize (Hx c Hc). specialize (Hy c Hc). specialize (H1 c Hc). specialize (H2 c Hc).
        rewrite excess_int in H1, H2 by done.
        assert (EB : cell_balance m (fun f => at0 (magFaceAreas m) f * normal_gradient m phi dc f) c + - (1) * cell_balance m (fun f => at0 (magFaceAreas m) f * normal_gradient m psi dc f) c =
          cell_balance m (fun f => at0 (magFaceAreas m) f * normal_gradient m (excess phi psi) dc f) c + - (1) * cell_balance m (fun f => at0 (magFaceAreas m) f * normal_gradient m (excess psi phi) dc f) c).
        { rewrite <- !balance_scaled, <- !balance_add. apply (balance_congr m Hm). intros f Hf. pose proof (gradient_split phi psi f Hf) as EF.
          transitivity (at0 (magFaceAreas m) f * (normal_gradient m phi dc f - normal_gradient m psi dc f)); [ring|]. rewrite EF. ring. }
        pose proof (pos_diff (at0 (vf_int phi) c) (at0 (vf_int psi) c)) as EP. pose proof (vt_vol m Hm c Hc) as HV. revert Hx Hy H1 H2 EB EP HV.
        generalize (cell_balance m (fun f => at0 (magFaceAreas m) f * normal_gradient m phi dc f) c) (cell_balance m (fun f => at0 (magFaceAreas m) f * normal_gradient m psi dc f) c)
          (cell_balance m (fun f => at0 (magFaceAreas m) f * normal_gradient m (excess phi psi) dc f) c) (cell_balance m (fun f => at0 (magFaceAreas m) f * normal_gradient m (excess psi phi) dc f) c)
          (pos (at0 (vf_int phi) c - at0 (vf_int psi) c)) (pos (at0 (vf_int psi) c - at0 (vf_int phi) c)).
        generalize (at0 (cellVolumes m) c) (at0 x c) (at0 y c) (at0 d1 c) (at0 d2 c) (at0 (vf_int phi) c) (at0 (vf_int psi) c).
        intros V a b u v s t B1 B2 B3 B4 p1 p2 Hx Hy H1 H2 EB EP HV.
        assert (HV0 : V <> 0) by (intros ->; by apply Qclt_not_eq in HV).
        assert (EV : V * (a - b) = V * (u - v)).
        { transitivity (V * (a - s) - V * (b - t) + V * (s - t)); [ring|]. rewrite Hx, Hy, <- EP.
          transitivity (dt * (B1 + - (1) * B2) + V * (p1 - p2)); [ring|]. rewrite EB.
          transitivity (dt * B3 - dt * B4 + V * (p1 - p2)); [ring|]. rewrite <- H1, <- H2. ring. }
        transitivity (V * (a - b) / V); [field; done|]. rewrite EV. field; done.
      - destruct (excess_range phi psi) as [R1 R2]. by apply (step_lower m Hm dc dt (excess phi psi) d1 0 (top phi psi)).
      - destruct (excess_range psi phi) as [R1 R2]. by apply (step_lower m Hm dc dt (excess psi phi) d2 0 (top psi phi)).
      - by apply (excess_influx dt).
      - by apply (excess_influx dt).
    Qed.
  End diffusion.
End explicit.

(** * Implicit transport *)
Section implicit.
  Context (m : mesh) (Hm : valid_topology m) (flux gamma dc : list Qc) (Hdiff : diffusive m gamma dc).
  Context (vf : nat -> Qc) (Hvf : forall b, (b < nBoundaryFaces m)%nat -> 0 <= vf b /\ vf b <= 1 /\ (vf b = 0 \/ at0 flux (nInternalFaces m + b)%nat <= 0) /\
    (at0 flux (nInternalFaces m + b)%nat < 0 -> vf b = 1)).
  (** What leaves the owner through a face when the cell values are [w] and all
      boundary data 0. *)
  Definition leaves (w : nat -> Qc) (f : nat) : Qc :=
    if decide (f < nInternalFaces m)%nat then
      at0 flux f * (if Qclt_le_dec (at0 flux f) 0 then w (atn (faceNeighbour m) f) else w (atn (faceOwner m) f))
      - at0 gamma f * at0 (magFaceAreas m) f * at0 dc f * (w (atn (faceNeighbour m) f) - w (atn (faceOwner m) f))
    else let b := (f - nInternalFaces m)%nat in let c := atn (bFaceCells (bmesh m)) b in
      at0 flux f * (1 - vf b) * w c + at0 gamma f * at0 (magFaceAreas m) f * at0 dc f * vf b * w c.
  Lemma leaves_lin s (v w : nat -> Qc) f : leaves (fun c => v c + s * w c) f = leaves v f + s * leaves w f.
  Proof. unfold leaves. destruct (decide _); [destruct (Qclt_le_dec _ _)|]; ring. Qed.
  Lemma face_coef f : (f < nFaces m)%nat -> 0 <= at0 gamma f * at0 (magFaceAreas m) f * at0 dc f.
  Proof using Hdiff. intros Hf. destruct (Hdiff f Hf) as (A & B & C). by repeat apply qc_mul_nonneg. Qed.
  (** A cell whose value is the smallest, 0, gains. *)
  Lemma gains (w : nat -> Qc) c : (forall d, (d < nCells m)%nat -> 0 <= w d) -> w c = 0 -> 0 <= - cell_balance m (leaves w) c.
  Proof using Hm Hdiff.
    intros Hw Hc. eapply (nonneg_eq (cell_balance m (fun f => - (1) * leaves w f) c)); [|rewrite balance_scaled; ring]. apply balance_nonneg.
    - intros f Hf Ho. unfold leaves. rewrite decide_True by done. rewrite Ho, Hc. pose proof (face_coef f ltac:(rewrite (vt_faces m Hm); lia)) as G.
      pose proof (qc_mul_nonneg _ _ G (Hw _ (vt_nei m Hm f Hf))) as P. destruct (Qclt_le_dec (at0 flux f) 0) as [Hs|Hs].
      + assert (Q : 0 <= - at0 flux f * w (atn (faceNeighbour m) f)) by (apply qc_mul_nonneg; [revert Hs; generalize (at0 flux f); qc_lra|by apply Hw, (vt_nei m Hm)]).
        eapply (nonneg_eq (- at0 flux f * w (atn (faceNeighbour m) f) + at0 gamma f * at0 (magFaceAreas m) f * at0 dc f * w (atn (faceNeighbour m) f))); [|ring].
        revert P Q. generalize (- at0 flux f * w (atn (faceNeighbour m) f)) (at0 gamma f * at0 (magFaceAreas m) f * at0 dc f * w (atn (faceNeighbour m) f)). qc_lra.
      + eapply nonneg_eq; [exact P|ring].
    - intros f Hf Hn. unfold leaves. rewrite decide_True by done. rewrite Hn, Hc. pose proof (face_coef f ltac:(rewrite (vt_faces m Hm); lia)) as G.
      pose proof (qc_mul_nonneg _ _ G (Hw _ (owner_lt m Hm f Hf))) as P. destruct (Qclt_le_dec (at0 flux f) 0) as [Hs|Hs].
      + eapply (nonpos_eq (- (at0 gamma f * at0 (magFaceAreas m) f * at0 dc f * w (atn (faceOwner m) f)))); [revert P; generalize (at0 gamma f * at0 (magFaceAreas m) f * at0 dc f * w (atn (faceOwner m) f)); qc_lra|ring].
      + pose proof (qc_mul_nonneg _ _ Hs (Hw _ (owner_lt m Hm f Hf))) as Q.
        eapply (nonpos_eq (- (at0 flux f * w (atn (faceOwner m) f) + at0 gamma f * at0 (magFaceAreas m) f * at0 dc f * w (atn (faceOwner m) f)))); [|ring].
        revert P Q. generalize (at0 flux f * w (atn (faceOwner m) f)) (at0 gamma f * at0 (magFaceAreas m) f * at0 dc f * w (atn (faceOwner m) f)). qc_lra.
    - intros b Hb Hbc. unfold leaves. rewrite decide_False by lia. replace (nInternalFaces m + b - nInternalFaces m)%nat with b by lia. cbv zeta. rewrite Hbc, Hc.
      eapply nonneg_eq; [apply Qcle_refl|ring].
  Qed.
  (** Through the boundary a non-negative field only loses. *)
  Lemma boundary_loses (w : nat -> Qc) : (forall d, (d < nCells m)%nat -> 0 <= w d) -> 0 <= vsum_over (nCells m) (cell_balance m (leaves w)).
  Proof using Hm Hdiff Hvf.
    intros Hw. rewrite (FVProofs.balance_total m Hm (V := Qc) (leaves w)). apply sum_nonneg. intros b Hb.
    unfold leaves. rewrite decide_False by lia. replace (nInternalFaces m + b - nInternalFaces m)%nat with b by lia. cbv zeta.
    pose proof (Hw _ (vt_fc m Hm b Hb)) as HW. pose proof (face_coef (nInternalFaces m + b)%nat ltac:(rewrite (vt_faces m Hm); lia)) as G.
    destruct (Hvf b Hb) as (V1 & V2 & V3 & V4). pose proof (qc_mul_nonneg _ _ (qc_mul_nonneg _ _ G V1) HW) as P.
    assert (Q : 0 <= at0 flux (nInternalFaces m + b)%nat * (1 - vf b) * w (atn (bFaceCells (bmesh m)) b)).
    { destruct (Qclt_le_dec (at0 flux (nInternalFaces m + b)) 0) as [Hs|Hs].
      - rewrite (V4 Hs). eapply nonneg_eq; [apply Qcle_refl|ring].
      - apply qc_mul_nonneg; [|done]. apply qc_mul_nonneg; [done|]. revert V2. generalize (vf b). qc_lra. }
    revert P Q. generalize (at0 flux (nInternalFaces m + b)%nat * (1 - vf b) * w (atn (bFaceCells (bmesh m)) b)) (at0 gamma (nInternalFaces m + b)%nat * at0 (magFaceAreas m) (nInternalFaces m + b)%nat * at0 dc (nInternalFaces m + b)%nat * vf b * w (atn (bFaceCells (bmesh m)) b)). qc_lra.
  Qed.
  (** The difference [d] after a step that started with the difference [o]. *)
  Lemma step_total dt (d o : nat -> Qc) : 0 < dt ->
    (forall c, (c < nCells m)%nat -> at0 (cellVolumes m) c * d c = at0 (cellVolumes m) c * o c + - dt * cell_balance m (leaves d) c) ->
    vsum_over (nCells m) (fun c => at0 (cellVolumes m) c * Qcabs (d c)) <= vsum_over (nCells m) (fun c => at0 (cellVolumes m) c * Qcabs (o c)).
  Proof using Hm Hdiff Hvf.
    intros Hdt Hd. set (A := fun c => Qcabs (d c)).
    assert (HA : forall c, (c < nCells m)%nat -> 0 <= at0 (cellVolumes m) c * Qcabs (o c) - at0 (cellVolumes m) c * A c - dt * cell_balance m (leaves A) c).
    { intros c Hc. pose proof (vt_vol m Hm c Hc) as HV.
      assert (Hs : exists s, (s = 1 \/ s = - (1)) /\ A c = s * d c).
      { unfold A. destruct (Qclt_le_dec (d c) 0) as [Hs|Hs].
        - exists (- (1)). split; [by right|]. rewrite Qcabs_neg by (by apply Qclt_le_weak). ring.
        - exists 1. split; [by left|]. rewrite Qcabs_pos by done. ring. }
      destruct Hs as (s & Hs & EA).
      assert (Hle : forall x, 0 <= Qcabs x + - s * x).
      { intros x. destruct Hs as [-> | ->]; destruct (Qclt_le_dec x 0) as [Hx|Hx];
          [rewrite Qcabs_neg by (by apply Qclt_le_weak)|rewrite Qcabs_pos by done|rewrite Qcabs_neg by (by apply Qclt_le_weak)|rewrite Qcabs_pos by done]; revert Hx; qc_lra. }
      pose proof (gains (fun e => A e + - s * d e) c (fun e _ => Hle (d e))) as Hg. cbv beta in Hg. rewrite EA in Hg. specialize (Hg ltac:(ring)).
      assert (EL : cell_balance m (leaves (fun e => A e + - s * d e)) c = cell_balance m (leaves A) c + - s * cell_balance m (leaves d) c).
      { rewrite <- balance_scaled, <- balance_add. apply (balance_congr m Hm). intros f _. apply leaves_lin. }
      rewrite EL in Hg. rewrite EA. specialize (Hle (o c)). pose proof (qc_mul_nonneg _ _ (Qclt_le_weak _ _ HV) Hle) as P. pose proof (qc_mul_nonneg _ _ (Qclt_le_weak _ _ Hdt) Hg) as Q.
      eapply (nonneg_eq (at0 (cellVolumes m) c * (Qcabs (o c) + - s * o c) + dt * - (cell_balance m (leaves A) c + - s * cell_balance m (leaves d) c))).
      - revert P Q. generalize (at0 (cellVolumes m) c * (Qcabs (o c) + - s * o c)) (dt * - (cell_balance m (leaves A) c + - s * cell_balance m (leaves d) c)). qc_lra.
      - transitivity (at0 (cellVolumes m) c * Qcabs (o c) - s * (at0 (cellVolumes m) c * o c + - dt * cell_balance m (leaves d) c) - dt * cell_balance m (leaves A) c); [ring|].
        rewrite <- (Hd c Hc). ring. }
    pose proof (sum_nonneg _ _ HA) as HS. pose proof (boundary_loses A) as HB.
    assert (HB' : 0 <= vsum_over (nCells m) (cell_balance m (leaves A))) by (apply HB; intros e _; apply Qcabs_nonneg).
    assert (E : vsum_over (nCells m) (fun c => at0 (cellVolumes m) c * Qcabs (o c) - at0 (cellVolumes m) c * A c - dt * cell_balance m (leaves A) c) =
      vsum_over (nCells m) (fun c => at0 (cellVolumes m) c * Qcabs (o c)) - vsum_over (nCells m) (fun c => at0 (cellVolumes m) c * A c) - dt * vsum_over (nCells m) (cell_balance m (leaves A))).
    { transitivity (vadd (vsum_over (nCells m) (fun c => at0 (cellVolumes m) c * Qcabs (o c))) (vadd (vscale (- (1)) (vsum_over (nCells m) (fun c => at0 (cellVolumes m) c * A c))) (vscale (- dt) (vsum_over (nCells m) (cell_balance m (leaves A)))))).
      - rewrite <- !vsum_over_scale, <- !vsum_over_add. apply vsum_over_ext. intros c Hc. cbn [vadd vscale Qc_value]. ring.
      - cbn [vadd vscale Qc_value]. ring. }
    rewrite E in HS. pose proof (qc_mul_nonneg _ _ (Qclt_le_weak _ _ Hdt) HB') as Q. fold (A 0%nat). revert HS Q. unfold A.
    generalize (dt * vsum_over (nCells m) (cell_balance m (leaves (fun c => Qcabs (d c))))) (vsum_over (nCells m) (fun c => at0 (cellVolumes m) c * Qcabs (o c))) (vsum_over (nCells m) (fun c => at0 (cellVolumes m) c * Qcabs (d c))). qc_lra.
  Qed.
End implicit.

Lemma transported_total m (Hm : valid_topology m) flux gamma dc (Hdiff : diffusive m gamma dc) phi psi (Hin : inflow_boundary m flux phi) (Hiv : inflow_values m flux phi)
  (Hb : forall b, (b < nBoundaryFaces m)%nat -> at0 (vf_valueFraction phi) b = at0 (vf_valueFraction psi) b /\
     (at0 (vf_valueFraction phi) b = 0 \/ at0 (vf_refValue phi) b = at0 (vf_refValue psi) b) /\
     (1 - at0 (vf_valueFraction phi) b) * at0 (vf_refGrad phi) b = (1 - at0 (vf_valueFraction psi) b) * at0 (vf_refGrad psi) b)
  dt old1 old2 x y : 0 < dt -> transported m flux gamma dc dt phi old1 x -> transported m flux gamma dc dt psi old2 y ->
  total_distance m x y <= total_distance m old1 old2.
Proof.
  intros Hdt [_ Lx] [_ Ly]. unfold cell_law in Lx, Ly. unfold total_distance.
  apply (step_total m Hm flux gamma dc Hdiff (at0 (vf_valueFraction phi))) with (dt := dt) (d := fun c => at0 x c - at0 y c) (o := fun c => at0 old1 c - at0 old2 c); [|done|].
  { intros b Hbb. destruct (Hin b Hbb) as (A & B & C). split; [done|]. split; [done|]. split; [done|]. by apply Hiv. }
  intros c Hc. assert (Hdt0 : dt <> 0) by (intros ->; by apply Qclt_not_eq in Hdt).
  assert (EG : cell_balance m (leaves m flux gamma dc (at0 (vf_valueFraction phi)) (fun c => at0 x c - at0 y c)) c =
    cell_balance m (convected m flux phi x) c + - (1) * cell_balance m (diffused m gamma dc phi x) c + - (1) * (cell_balance m (convected m flux psi y) c + - (1) * cell_balance m (diffused m gamma dc psi y) c)).
  { rewrite <- !balance_scaled, <- !balance_add, <- !balance_scaled, <- !balance_add. apply (balance_congr m Hm). intros f Hf. rewrite (vt_faces m Hm) in Hf.
    unfold leaves, convected, diffused, implicit_face_value, implicit_normal_gradient, at_neighbour, at_owner, at_face_cell. cbn [with_int vf_int vf_valueFraction vf_refValue vf_refGrad].
    change (@atV Qc Qc_value) with at0. unfold vsub. cbn [vscale vadd vneg Qc_value].
    destruct (decide (f < nInternalFaces m)%nat) as [Hi|Hi]; [destruct (Qclt_le_dec (at0 flux f) 0); ring|].
    destruct (Hb (f - nInternalFaces m)%nat ltac:(lia)) as (B1 & B2 & B3). rewrite <- B1 in *. cbv zeta. revert B2 B3.
    generalize (at0 (vf_valueFraction phi) (f - nInternalFaces m)) (at0 (vf_refValue phi) (f - nInternalFaces m)) (at0 (vf_refValue psi) (f - nInternalFaces m))
      (at0 (vf_refGrad phi) (f - nInternalFaces m)) (at0 (vf_refGrad psi) (f - nInternalFaces m)). intros v r1 r2 g1 g2 B2 B3.
    assert (Hr : v * r1 = v * r2) by (destruct B2 as [->| ->]; ring).
    generalize dependent (at0 flux f). intros F. generalize (at0 gamma f) (at0 (magFaceAreas m) f) (at0 dc f) (at0 x (atn (bFaceCells (bmesh m)) (f - nInternalFaces m))) (at0 y (atn (bFaceCells (bmesh m)) (f - nInternalFaces m))).
    intros g M k a e. symmetry.
    transitivity (F * (1 - v) * (a - e) + g * M * k * v * (a - e) + (F - g * M * k) * (v * r1 - v * r2) - g * M * ((1 - v) * g1 - (1 - v) * g2)); [ring|]. rewrite Hr, B3. ring. }
  rewrite EG. specialize (Lx c Hc). specialize (Ly c Hc). apply (law_rearranged _ _ _ _ _ _ Hdt0) in Lx. apply (law_rearranged _ _ _ _ _ _ Hdt0) in Ly.
  transitivity (at0 (cellVolumes m) c * at0 x c - at0 (cellVolumes m) c * at0 y c); [ring|]. rewrite Lx, Ly. ring.
Qed.
