(** C101: the uniform 1D mesh, from its generation to the solution of Poisson's
    equation. *)
From Coq Require Import Reals Lqa.
From Verif Require Import Base Dict Registry Par Exec Reduce ReduceProofs Fields FieldsProofs Value Kernel Mesh MeshSpec MeshProofs Coeff FV FVSpec FVProofs FVProps Sparsity SparsitySpec SparsityProps SparsityDet Assembly AssemblySpec AssemblyProps
  Boundary Properties_Boundary Properties_CoNum ExampleMesh Properties_Sparsity Properties_Assembly Dsl DslSpec DslHeapProofs DslProofs DslAssembly Properties_Dsl Properties_DslAssembly
  TimeInt TimeSpec TimeIntProofs TimeIntSteps Properties_TimeInt FrontEnd SteadySolve Transport TransportProofs Properties_Transport Properties_Steady Properties_Pressure QcLra
  Geometry Properties_Mesh Properties_Geometry Properties_FV Rod RodCoeffs.
Local Open Scope nat_scope.

(** ** Coefficients *)
(** A mesh as create1DUniformMesh makes it, on any executor, whatever its arrays
    held before. *)
Definition generated (N : nat) (m : mesh) : Prop :=
  1 <= N /\ exists e oj nj, length oj = N + 1 /\ length nj = N - 1 /\ create1DUniformMesh e N oj nj (Some m).
Lemma generated_rod N m : generated N m -> rod N m.
Proof. intros (HN & e & oj & nj & Lo & Ln & H). by eapply rod_of. Qed.

(** The geometry scheme gives the same weights and inverse distances on every
    executor: 1/2 and N inside, 1 and 2N at the two ends. *)
Theorem C101_coefficients : forall N m e w dc, generated N m -> length w = N + 1 -> length dc = N + 1 ->
  surely (updateWeights e m w) (replicate (N - 1) half ++ [1; 1]%Qc) /\
  surely (updateDeltaCoeffs (geometry_of m) e dc) (replicate (N - 1) (INR N) ++ [2 * INR N; 2 * INR N]%R) /\
  surely (updateNonOrthDeltaCoeffs (geometry_of m) e dc) (replicate (N - 1) (INR N) ++ [2 * INR N; 2 * INR N]%R).
Proof.
  intros N m e w dc Hg Lw Ld. pose proof (generated_rod _ _ Hg) as HR.
  assert (EN : forall k, QcR (Qc_of_nat k) = INR k).
  { induction k as [|k IH]; [rewrite Qc_of_nat_0; apply QcR_0|]. rewrite Qc_of_nat_S, QcR_add, QcR_1, IH, S_INR. reflexivity. }
  assert (E : map QcR (rod_dc N) = replicate (N - 1) (INR N) ++ [2 * INR N; 2 * INR N]%R).
  { unfold rod_dc. rewrite map_app. f_equal.
    - change (map QcR ?l) with (QcR <$> l). rewrite fmap_replicate. by rewrite EN.
    - simpl. rewrite QcR_mul, QcR_add, QcR_1, EN. reflexivity. }
  split; [by apply (rod_weights_run N m HR)|]. rewrite <- E. split; [by apply (rod_deltas N m HR)|by apply (rod_nonOrth N m HR)].
Qed.
Print Assumptions C101_coefficients.

(** ** Operators *)
(** Cell centres and the field that samples the function [T] there and at the
    ends. *)
Definition centre (N c : nat) : Qc := ((Qc_of_nat c + half) / Qc_of_nat N)%Qc.
Definition samples (N : nat) (T : Qc -> Qc) (phi : volField Qc) : Prop :=
  length (vf_int phi) = N /\ (forall c, c < N -> at0 (vf_int phi) c = T (centre N c)) /\ vf_value phi = [T 0%Qc; T 1%Qc].
(** [dc] is what the geometry scheme computes. *)
Definition scheme_deltas (N : nat) (m : mesh) (dc : list Qc) : Prop :=
  exists e junk, length junk = N + 1 /\ updateNonOrthDeltaCoeffs (geometry_of m) e junk (Ok (map QcR dc)).
Definition scheme_weights (N : nat) (m : mesh) (w : list Qc) : Prop :=
  exists e junk, length junk = N + 1 /\ updateWeights e m junk (Ok w).

Lemma map_QcR_inj (l l' : list Qc) : map QcR l = map QcR l' -> l = l'.
Proof. revert l'. induction l as [|x l IH]; intros [|y l'] E; try done. injection E as E1 E2. f_equal; [by apply QcR_inj|by apply IH]. Qed.
Lemma scheme_deltas_are N m dc : rod N m -> scheme_deltas N m dc -> dc = rod_dc N.
Proof. intros HR (e & j & L & H). apply (rod_nonOrth N m HR e j L) in H. injection H as H. by apply map_QcR_inj. Qed.
Lemma scheme_weights_are N m w : rod N m -> scheme_weights N m w -> w = rod_weights N.
Proof. intros HR (e & j & L & H). apply (rod_weights_run N m HR e j L) in H. by injection H as H. Qed.

Lemma samples_ok N m T phi : rod N m -> samples N T phi -> field_ok m phi.
Proof. intros HR (L & _ & E). split; [by rewrite L, (rod_cells _ _ HR)|]. by rewrite E, (rod_bnd _ _ HR). Qed.
Lemma centre_left N c : 1 <= N -> ((centre N c - half / Qc_of_nat N) * Qc_of_nat N = Qc_of_nat c)%Qc.
Proof. intros HN. unfold centre. field. by apply Qc_of_nat_nz. Qed.
Lemma centre_next N c : 1 <= N -> centre N (c + 1) = (centre N c + 1 / Qc_of_nat N)%Qc.
Proof. intros HN. unfold centre. rewrite Qc_of_nat_add. change (Qc_of_nat 1) with 1%Qc. field. by apply Qc_of_nat_nz. Qed.
Lemma centre_first N : 1 <= N -> centre N 0 = (half / Qc_of_nat N)%Qc.
Proof. intros HN. unfold centre. rewrite Qc_of_nat_0. field. by apply Qc_of_nat_nz. Qed.
Lemma centre_last N : 1 <= N -> centre N (N - 1) = (1 - half / Qc_of_nat N)%Qc.
Proof.
  intros HN. unfold centre. assert (E : Qc_of_nat N = (Qc_of_nat (N - 1) + 1)%Qc) by (rewrite <- Qc_of_nat_S; f_equal; lia).
  apply (Qc_mul_reg (Qc_of_nat N)); [by apply Qc_of_nat_nz|].
  replace ((Qc_of_nat (N - 1) + half) / Qc_of_nat N * Qc_of_nat N)%Qc with (Qc_of_nat (N - 1) + half)%Qc by (field; by apply Qc_of_nat_nz).
  replace ((1 - half / Qc_of_nat N) * Qc_of_nat N)%Qc with (Qc_of_nat N - half)%Qc by (field; by apply Qc_of_nat_nz).
  rewrite E. pose proof half_nz. revert H. generalize (Qc_of_nat (N - 1)) half. intros x y H. qc_lra.
Qed.

Lemma half_eq : half = (1 / (1 + 1))%Qc.
Proof. apply Qc_is_canon. vm_compute. reflexivity. Qed.
Lemma two_nz : (1 + 1 <> 0)%Qc.
Proof. discriminate. Qed.

Local Ltac fld := field; repeat split; first [done | apply two_nz | discriminate | idtac].

Section operators.
  Context (N : nat) (m : mesh) (HR : rod N m).
  Let Hpos : 1 <= N := rod_pos _ _ HR.
  Let HN : Qc_of_nat N <> 0%Qc := Qc_of_nat_nz N Hpos.
  Notation X := (Qc_of_nat N).

  (** Difference quotients of a sampled function. *)
  Lemma rod_gradient T phi f : samples N T phi -> f < N + 1 ->
    normal_gradient m phi (rod_dc N) f =
      (if decide (f < N - 1)%nat then X * (T (centre N (f + 1)) - T (centre N f))
       else if decide (f = N - 1)%nat then (1 + 1) * X * (T 0 - T (centre N 0)) else (1 + 1) * X * (T 1 - T (centre N (N - 1))))%Qc.
  Proof.
    intros (L & P & E) Hf. unfold normal_gradient. rewrite (rod_int _ _ HR). destruct (decide (f < N - 1)) as [Hi|Hi].
    - unfold at_neighbour, at_owner. rewrite (rod_own _ _ HR), (rod_nei _ _ HR) by done. change (@atV Qc Qc_value) with at0. rewrite !P by lia.
      assert (at0 (rod_dc N) f = X) as -> by (unfold at0; rewrite rod_dc_int by done; done). done.
    - assert (at0 (rod_dc N) f = ((1 + 1) * X)%Qc) as -> by (unfold at0; rewrite rod_dc_bnd by lia; done).
      unfold at_face_cell. rewrite (rod_fc _ _ HR), E. change (@atV Qc Qc_value) with at0. destruct (decide (f = N - 1)) as [->|Hne].
      + rewrite Nat.sub_diag. change (atn [0; N - 1] 0) with 0. rewrite P by lia. done.
      + assert (f = N) as -> by lia. replace (N - (N - 1)) with 1 by lia. change (atn [0; N - 1] 1) with (N - 1). rewrite P by lia. done.
  Qed.
  Lemma rod_face_value phi (T : Qc -> Qc) f : samples N T phi -> f < N + 1 ->
    face_value m Linear phi [] (rod_weights N) f =
      (if decide (f < N - 1)%nat then half * (T (centre N f) + T (centre N (f + 1)))
       else if decide (f = N - 1)%nat then T 0 else T 1)%Qc.
  Proof.
    intros (L & P & E) Hf. unfold face_value. rewrite (rod_int _ _ HR). destruct (decide (f < N - 1)) as [Hi|Hi].
    - unfold at_neighbour, at_owner. rewrite (rod_own _ _ HR), (rod_nei _ _ HR) by done. change (@atV Qc Qc_value) with at0. rewrite !P by lia.
      assert (at0 (rod_weights N) f = half) as -> by (unfold at0; rewrite rod_weights_int by done; done).
      cbn [vadd vscale Qc_value]. assert (1 - half = half)%Qc as -> by (pose proof half_nz; qc_lra). ring.
    - assert (at0 (rod_weights N) f = 1%Qc) as -> by (unfold at0; rewrite rod_weights_bnd by lia; done).
      rewrite E. change (@atV Qc Qc_value) with at0. cbn [vscale Qc_value]. destruct (decide (f = N - 1)) as [->|Hne].
      + rewrite Nat.sub_diag. unfold at0. simpl. ring.
      + assert (f = N) as -> by lia. replace (N - (N - 1)) with 1 by lia. unfold at0. simpl. ring.
  Qed.
End operators.

(** Outward area vector times linearly interpolated value, through the right and
    the left face of cell [c]. *)
Lemma linear_faces N m phi a b c : rod N m -> samples N (fun x => a + b * x)%Qc phi -> c < N ->
  let g f := vscale (face_value m Linear phi [] (rod_weights N) f) (atv (faceAreas m) f) in
  (if decide (c = N - 1) then g N else g c) = Vec (a + b * ((Qc_of_nat c + 1) / Qc_of_nat N))%Qc 0 0 /\
  (if decide (c = 0) then g (N - 1) else vneg (g (c - 1))) = Vec (- (a + b * (Qc_of_nat c / Qc_of_nat N)))%Qc 0 0.
Proof.
  intros HR Hs Hc g. pose proof (rod_pos _ _ HR) as Hpos. pose proof (Qc_of_nat_nz N Hpos) as HN.
  assert (Hin : forall f, f < N - 1 -> g f = Vec (a + b * ((Qc_of_nat f + 1) / Qc_of_nat N))%Qc 0 0).
  { intros f Hf. unfold g. rewrite (rod_face_value N m HR phi _ f Hs) by lia. rewrite decide_True by done. unfold atv. rewrite (rod_area _ _ HR) by done.
    rewrite centre_next by done. unfold centre. rewrite half_eq. cbn. unfold vec_scale. simpl. f_equal; [|ring..]. fld. }
  split.
  - destruct (decide (c = N - 1)) as [->|Hne]; [|apply Hin; lia].
    unfold g. rewrite (rod_face_value N m HR phi _ N Hs) by lia. rewrite !decide_False by lia. unfold atv. rewrite (rod_area_r _ _ HR).
    rewrite <- Qc_of_nat_S. replace (S (N - 1)) with N by lia. cbn. unfold vec_scale. simpl. f_equal; [|ring..]. field. done.
  - destruct (decide (c = 0)) as [->|Hne].
    + unfold g. rewrite (rod_face_value N m HR phi _ (N - 1) Hs) by lia. rewrite decide_False by lia. rewrite decide_True by done. unfold atv. rewrite (rod_area_l _ _ HR).
      rewrite Qc_of_nat_0. cbn. unfold vec_scale. simpl. f_equal; [|ring..]. field || (field; done). 
    + rewrite Hin by lia. rewrite <- Qc_of_nat_S. replace (S (c - 1)) with c by lia. cbn. unfold vec_neg. simpl. f_equal; ring.
Qed.
(** The Green-Gauss gradient of a linear field is exact in every cell, those at
    the ends included. *)
Theorem C101_gradient_linear : forall N m e phi w junk a b,
  generated N m -> scheme_weights N m w -> samples N (fun x => a + b * x)%Qc phi -> length junk = N + 1 ->
  always (grad_value e m phi w junk) [replicate N (Vec b 0 0)].
Proof.
  intros N m e phi w junk a b Hg Hw Hs Lj. pose proof (generated_rod _ _ Hg) as HR. rewrite (scheme_weights_are _ _ _ HR Hw). clear w Hw.
  pose proof (rod_pos _ _ HR) as Hpos. pose proof (Qc_of_nat_nz N Hpos) as HN.
  assert (E : map (grad_spec m (rod_weights N) phi) (seq 0 (nCells m)) = replicate N (Vec b 0 0)).
  { apply list_eq. intros c. rewrite (rod_cells _ _ HR). change (map ?f ?l) with (f <$> l). rewrite list_lookup_fmap.
    destruct (decide (c < N)) as [Hc|Hc].
    2:{ rewrite (proj2 (lookup_ge_None (seq 0 N) c)) by (rewrite seq_length; lia). simpl. symmetry. apply lookup_ge_None. rewrite replicate_length. lia. }
    rewrite lookup_seq_lt, lookup_replicate_2 by done. simpl. f_equal. unfold grad_spec.
    rewrite (rod_vol _ _ HR), (rod_balance (V := vec) N m _ c HR Hc) by done.
    destruct (linear_faces N m phi a b c HR Hs Hc) as [E1 E2]. cbv zeta in E1, E2. rewrite E1, E2.
    cbn. unfold vec_scale, vec_add. simpl. f_equal; [|ring..]. field. split; [done|discriminate]. }
  rewrite <- E. apply grad_value_spec; [apply (rod_top _ _ HR)|by eapply samples_ok|rewrite rod_weights_length by done|..]; rewrite (rod_faces _ _ HR); try done.
  apply (rod_lens _ _ HR).
Qed.
Print Assumptions C101_gradient_linear.

(** Outward normal gradients of a sampled quadratic through the right and the
    left face of cell [c]: exact inside, off by q/(2N) at the ends. *)
Lemma quadratic_faces N m phi a b q c : rod N m -> samples N (fun x => a + b * x + q * (x * x))%Qc phi -> c < N ->
  let g f := vscale (at0 (magFaceAreas m) f) (normal_gradient m phi (rod_dc N) f) in
  let X := Qc_of_nat N in
  (if decide (c = N - 1) then g N else g c) =
    (b + (1 + 1) * q * ((Qc_of_nat c + 1) / X) - (if decide (c = N - 1)%nat then q * half / X else 0))%Qc /\
  (if decide (c = 0) then g (N - 1) else vneg (g (c - 1))) =
    (- (b + (1 + 1) * q * (Qc_of_nat c / X)) - (if decide (c = 0)%nat then q * half / X else 0))%Qc.
Proof.
  intros HR Hs Hc g X. pose proof (rod_pos _ _ HR) as Hpos. pose proof (Qc_of_nat_nz N Hpos : X <> 0%Qc) as HN.
  assert (Hg : forall f, f < N + 1 -> g f = normal_gradient m phi (rod_dc N) f).
  { intros f Hf. unfold g, at0 at 1. rewrite (rod_mag _ _ HR) by done. cbn. ring. }
  assert (Hin : forall f, f < N - 1 -> g f = (b + (1 + 1) * q * ((Qc_of_nat f + 1) / X))%Qc).
  { intros f Hf. rewrite Hg, (rod_gradient N m HR _ phi f Hs), decide_True by lia. fold X.
    rewrite centre_next by done. unfold centre. fold X. rewrite half_eq. fld. }
  split.
  - destruct (decide (c = N - 1)) as [->|Hne]; [|rewrite Hin by lia; ring].
    rewrite Hg, (rod_gradient N m HR _ phi N Hs), !decide_False by lia. fold X.
    rewrite <- Qc_of_nat_S. replace (S (N - 1)) with N by lia. fold X. rewrite centre_last by done. fold X. rewrite half_eq. fld.
  - destruct (decide (c = 0)) as [->|Hne].
    + rewrite Hg, (rod_gradient N m HR _ phi (N - 1) Hs), decide_False, decide_True by lia. fold X. rewrite Qc_of_nat_0, centre_first by done. fold X. rewrite half_eq. fld.
    + rewrite Hin by lia. rewrite <- Qc_of_nat_S. replace (S (c - 1)) with c by lia. cbn [vneg Qc_value]. ring.
Qed.
(** The Laplacian of a + b x + q x^2 is exactly 2q in the cells inside; in the
    cells at the ends the one-sided differences lose q/2 each.  So it is exact
    everywhere for linear fields. *)
Theorem C101_laplacian_quadratic : forall N m e phi dc gamma junk a b q,
  generated N m -> scheme_deltas N m dc -> samples N (fun x => a + b * x + q * (x * x))%Qc phi -> length junk = N + 1 ->
  always (computeLaplacianExp e m dc gamma phi junk (replicate N 0%Qc) coeff_default)
    [map (fun c => ((1 + 1) * q - (if decide (c = 0)%nat then q / (1 + 1) else 0) - (if decide (c = N - 1)%nat then q / (1 + 1) else 0))%Qc) (seq 0 N)].
Proof.
  intros N m e phi dc gamma junk a b q Hg Hd Hs Lj. pose proof (generated_rod _ _ Hg) as HR. rewrite (scheme_deltas_are _ _ _ HR Hd). clear dc Hd.
  pose proof (rod_pos _ _ HR) as Hpos. pose proof (Qc_of_nat_nz N Hpos) as HN.
  assert (E : forall c, c < N -> vadd (per_volume m coeff_default c (atV (replicate N 0%Qc) c)) (laplacian_spec m (rod_dc N) phi coeff_default c) =
    ((1 + 1) * q - (if decide (c = 0)%nat then q / (1 + 1) else 0) - (if decide (c = N - 1)%nat then q / (1 + 1) else 0))%Qc).
  { intros c Hc. unfold per_volume, laplacian_spec, per_volume. rewrite (rod_vol _ _ HR), (rod_balance (V := Qc) N m _ c HR Hc) by done.
    destruct (quadratic_faces N m phi a b q c HR Hs Hc) as [E1 E2]. cbv zeta in E1, E2. rewrite E1, E2. clear E1 E2.
    assert (atV (replicate N 0%Qc) c = 0%Qc) as -> by (unfold atV; by rewrite lookup_replicate_2).
    unfold coeff_val, coeff_default. cbn [coeff_ view_ vadd vscale Qc_value]. rewrite half_eq.
    destruct (decide (c = N - 1)), (decide (c = 0)); fld. }
  rewrite <- (map_ext_in (fun c => vadd (per_volume m coeff_default c (atV (replicate N 0%Qc) c)) (laplacian_spec m (rod_dc N) phi coeff_default c)))
    by (intros c Hc; apply in_seq in Hc; apply E; lia).
  replace (seq 0 N) with (seq 0 (nCells m)) by (by rewrite (rod_cells _ _ HR)).
  apply (C33_laplacian_target_exact m (rod_top _ _ HR)); rewrite ?(rod_faces _ _ HR), ?(rod_cells _ _ HR), ?replicate_length; try done.
  - by eapply samples_ok.
  - by apply rod_dc_length.
  - apply (rod_lens _ _ HR).
Qed.
Print Assumptions C101_laplacian_quadratic.

(** ** Poisson's equation *)
(** The program of C100 on a generated mesh with the inverse distances of the
    geometry scheme; values [TL], [TR] prescribed at the ends. *)
Record rod_case (N : nat) (TL TR : Qc) (cx : ctx Qc) lin (fvSchemes fvSolution : dict) (gamma flux n : nat) (st : tstate) : Prop := {
  rc_mesh : generated N (cx_mesh cx);
  rc_weights : length (cx_weights cx) = N + 1;
  rc_deltas : scheme_deltas N (cx_mesh cx) (cx_dc cx);
  rc_exec : cx_exec cx = SerialExecutor \/ 2 <= N;
  rc_pattern : surely (sp_create (cx_exec cx) (cx_mesh cx)) (cx_pattern cx);
  rc_sizes : length (vf_int (ts_phi st)) = N /\ length (vf_value (ts_phi st)) = 2 /\ length (vf_refGrad (ts_phi st)) = 2 /\ length (old_of st) = N;
  rc_fixed : vf_valueFraction (ts_phi st) = [1; 1]%Qc /\ vf_refValue (ts_phi st) = [TL; TR];
  rc_gamma : length (cx_surf cx gamma) = N + 1;
  rc_flux : length (cx_surfV cx flux) = N + 1;
  rc_laplacian : exists s, (laplacian_build (cx_surfName cx gamma) (cx_volName cx n) (IDict fvSchemes)).1 = Ok s;
  rc_solver : exists name, solver_create fvSolution = Ok name;
  rc_exact : exact_solver lin;
}.

Lemma all_same_short {A} (l : list A) a : NoDup l -> (forall x, x ∈ l -> x = a) -> length l <= 1.
Proof.
  intros Hn Ha. destruct l as [|x [|y l]]; simpl; try lia. exfalso. apply NoDup_cons in Hn as [Hx _]. apply Hx.
  rewrite (Ha x), <- (Ha y); [left|right; left|left].
Qed.
Lemma rod_fit N m : rod N m -> rows_fit m.
Proof.
  intros HR c Hc. unfold row_spec. simpl. rewrite app_length, !map_length.
  assert (length (faces_owned m c) <= 1).
  { apply (all_same_short _ c); [apply NoDup_filter, NoDup_seq|]. intros f Hf. unfold faces_owned in Hf. apply elem_of_list_filter in Hf as [E Hf]. apply elem_of_seq in Hf.
    rewrite (rod_int _ _ HR) in Hf. rewrite (rod_own _ _ HR) in E by lia. done. }
  assert (length (faces_neighboured m c) <= 1).
  { apply (all_same_short _ (c - 1)); [apply NoDup_filter, NoDup_seq|]. intros f Hf. unfold faces_neighboured in Hf. apply elem_of_list_filter in Hf as [E Hf]. apply elem_of_seq in Hf.
    rewrite (rod_int _ _ HR) in Hf. rewrite (rod_nei _ _ HR) in E by lia. lia. }
  lia.
Qed.
Lemma rod_case_pressure N TL TR cx lin fvSchemes fvSolution gamma flux n st :
  rod_case N TL TR cx lin fvSchemes fvSolution gamma flux n st -> pressure_case cx lin fvSchemes fvSolution gamma flux n st.
Proof.
  intros [Hg Hw Hd He Hp (S1 & S2 & S3 & S4) (F1 & F2) H1 H2 H3 H4 H5]. pose proof (generated_rod _ _ Hg) as HR. pose proof (rod_top _ _ HR) as Ht.
  pose proof (rod_pos _ _ HR) as Hpos. rewrite <- (rod_faces _ _ HR) in Hw, H1, H2.
  split; try done.
  - destruct (C29_pattern (cx_mesh cx) (cx_exec cx) (valid_connectivity _ Ht) (rod_fit _ _ HR)) as [_ HP].
    destruct (HP _ (proj2 (Hp (Ok (cx_pattern cx))) eq_refl)) as (p & [= <-] & P1 & P2).
    split; [done|]. split; [done|]. split; [done|]. split; [done|]. rewrite (scheme_deltas_are _ _ _ HR Hd), rod_dc_length, (rod_faces _ _ HR) by done.
    split; [done|]. split; [apply (rod_lens _ _ HR)|]. destruct He as [He|He]; [by left|right].
    intros b b' Hb Hb'. rewrite (rod_bnd _ _ HR) in Hb, Hb'. rewrite (rod_fc _ _ HR).
    destruct b as [|[|b]]; [..|lia]; destruct b' as [|[|b']]; try lia; cbn; lia.
  - unfold state_ok, sized. rewrite F1, F2, (rod_cells _ _ HR), (rod_bnd _ _ HR). repeat split; done.
Qed.

(** Positions along the rod: 0 and N are the ends, i between 1 and N - 1 the
    face between cells i - 1 and i. *)
Definition position_face (N i : nat) : nat := if decide (i = 0) then N - 1 else if decide (i = N) then N else i - 1.
Definition conductance (N : nat) (gamma : list Qc) (i : nat) : Qc :=
  (at0 gamma (position_face N i) * (if decide (i = 0 \/ i = N)%nat then (1 + 1) * Qc_of_nat N else Qc_of_nat N))%Qc.
(** The flux to the right there (face normals point outwards at the ends). *)
Definition rightward (N : nat) (flux : list Qc) (i : nat) : Qc :=
  (if decide (i = 0)%nat then - at0 flux (N - 1)%nat else at0 flux (position_face N i))%Qc.
(** Values at end, cell centres, end. *)
Definition profile (N : nat) (TL TR : Qc) (x : list Qc) (j : nat) : Qc :=
  if decide (j = 0) then TL else if decide (j = N + 1) then TR else at0 x (j - 1).

Section poisson.
  Context (N : nat) (TL TR : Qc) (cx : ctx Qc) (gamma flux : nat) (phi : volField Qc).
  Context (HR : rod N (cx_mesh cx)) (Hdc : cx_dc cx = rod_dc N).
  Context (Hvf : vf_valueFraction phi = [1; 1]%Qc) (Hrv : vf_refValue phi = [TL; TR]).
  Let Hpos : 1 <= N := rod_pos _ _ HR.
  Notation g := (corrected_flux cx gamma flux phi).
  Notation P := (profile N TL TR).
  Notation G := (conductance N (cx_surf cx gamma)).
  Notation F := (rightward N (cx_surfV cx flux)).

  (** Corrected flux to the right. *)
  Lemma corrected_right x i : 1 <= i <= N -> g x (position_face N i) = (F i - G i * (P x (i + 1) - P x i))%Qc.
  Proof.
    intros Hi. unfold corrected_flux, diffused, rightward, conductance. rewrite (decide_False (P := i = 0)) by lia.
    f_equal.
    assert (Hlt : position_face N i < N + 1) by (unfold position_face; repeat destruct (decide _); lia).
    assert (at0 (magFaceAreas (cx_mesh cx)) (position_face N i) = 1%Qc) as -> by (unfold at0; by rewrite (rod_mag _ _ HR)).
    rewrite Qcmult_1_r, <- Qcmult_assoc. f_equal. unfold implicit_normal_gradient. rewrite (rod_int _ _ HR), Hdc. unfold profile, position_face.
    rewrite (decide_False (P := i = 0)), (decide_False (P := i + 1 = 0)), (decide_False (P := i = N + 1)) by lia.
    destruct (decide (i = N)) as [->|Hne].
    - rewrite (decide_True (P := N = 0 \/ N = N)) by auto. rewrite (decide_True (P := N + 1 = N + 1)) by done. rewrite decide_False by lia.
      replace (N - (N - 1)) with 1 by lia. unfold at_face_cell. cbn [with_int vf_valueFraction vf_refValue vf_refGrad vf_int]. rewrite Hvf, Hrv, (rod_fc _ _ HR).
      change (atn [0; N - 1] 1) with (N - 1). change (at0 [1; 1]%Qc 1) with 1%Qc. change (@atV Qc Qc_value) with at0. change (at0 [TL; TR] 1) with TR.
      assert (at0 (rod_dc N) N = ((1 + 1) * Qc_of_nat N)%Qc) as -> by (unfold at0; rewrite rod_dc_bnd by lia; done). rewrite ?(decide_False (P := N = 0)) by lia. vring.
    - rewrite (decide_False (P := i = 0 \/ i = N)) by lia. rewrite (decide_False (P := i + 1 = N + 1)) by lia. rewrite decide_True by lia.
      unfold at_neighbour, at_owner. rewrite (rod_own _ _ HR), (rod_nei _ _ HR) by lia. cbn [with_int vf_int]. replace (i + 1 - 1) with i by lia. replace (i - 1 + 1) with i by lia.
      assert (at0 (rod_dc N) (i - 1) = Qc_of_nat N) as -> by (unfold at0; rewrite rod_dc_int by lia; done). rewrite ?(decide_False (P := i = 0)), ?(decide_False (P := i = N + 1)) by lia. vring.
  Qed.
  Lemma corrected_left x : (- g x (N - 1)%nat = F 0 - G 0 * (P x 1 - P x 0))%Qc.
  Proof.
    unfold corrected_flux, diffused, rightward, conductance, position_face, profile. rewrite !(decide_True (P := 0 = 0)), (decide_True (P := 0 = 0 \/ 0 = N)) by auto.
    rewrite (decide_False (P := 1 = 0)), (decide_False (P := 1 = N + 1)) by lia.
    assert (at0 (magFaceAreas (cx_mesh cx)) (N - 1) = 1%Qc) as -> by (unfold at0; rewrite (rod_mag _ _ HR) by lia; done).
    unfold implicit_normal_gradient. rewrite (rod_int _ _ HR), Hdc, decide_False, Nat.sub_diag by lia.
    unfold at_face_cell. cbn [with_int vf_valueFraction vf_refValue vf_refGrad vf_int]. rewrite Hvf, Hrv, (rod_fc _ _ HR).
    change (atn [0; N - 1] 0) with 0. change (at0 [1; 1]%Qc 0) with 1%Qc. change (@atV Qc Qc_value) with at0. change (at0 [TL; TR] 0) with TL. change (1 - 1)%nat with 0.
    assert (at0 (rod_dc N) (N - 1) = ((1 + 1) * Qc_of_nat N)%Qc) as -> by (unfold at0; rewrite rod_dc_bnd by lia; done). vring.
  Qed.
  Notation J x i := (F i - G i * (P x (i + 1)%nat - P x i))%Qc.
  Lemma balance_J x c : c < N -> cell_balance (cx_mesh cx) (g x) c = (J x (c + 1)%nat - J x c)%Qc.
  Proof.
    intros Hc. rewrite (rod_balance (V := Qc) N _ _ c HR Hc). cbn [vadd vneg Qc_value].
    assert (E1 : (if decide (c = N - 1) then g x N else g x c) = J x (c + 1)%nat).
    { rewrite <- corrected_right by lia. unfold position_face. rewrite (decide_False (P := c + 1 = 0)) by lia.
      destruct (decide (c = N - 1)); [rewrite decide_True by lia; done|rewrite decide_False by lia]. by replace (c + 1 - 1) with c by lia. }
    assert (E2 : (if decide (c = 0) then g x (N - 1)%nat else (- g x (c - 1)%nat)%Qc) = (- J x c)%Qc).
    { destruct (decide (c = 0)) as [->|Hne].
      - rewrite <- corrected_left. simpl. ring.
      - rewrite <- corrected_right by lia. unfold position_face. rewrite (decide_False (P := c = 0)), (decide_False (P := c = N)) by lia. done. }
    rewrite E1, E2. ring.
  Qed.
  Lemma solution_iff x : (forall c, c < N -> cell_balance (cx_mesh cx) (g x) c = 0%Qc) <->
    exists K, forall i, i <= N -> (G i * (P x (i + 1) - P x i) = F i + K)%Qc.
  Proof.
    split.
    - intros H. exists (- J x 0)%Qc. assert (HJ : forall i, i <= N -> J x i = J x 0).
      { induction i as [|i IH]; intros Hi; [done|]. pose proof (H i ltac:(lia)) as E. rewrite balance_J in E by lia. replace (i + 1) with (S i) in E by lia.
        rewrite <- IH by lia. revert E. replace (i + 1) with (S i) by lia. generalize (J x (S i)) (F i - G i * (P x (S i) - P x i))%Qc. intros u v E. qc_lra. }
      intros i Hi. specialize (HJ i Hi). revert HJ. generalize (G i * (P x (i + 1)%nat - P x i))%Qc (J x 0). intros u v E. qc_lra.
    - intros (K & HK) c Hc. rewrite balance_J by done. rewrite !HK by lia. ring.
  Qed.
End poisson.

Lemma rod_runs N TL TR dbg cx bcs lin fvSchemes fvSolution gamma flux n st t dt r :
  rod_case N TL TR cx lin fvSchemes fvSolution gamma flux n st ->
  run_program (pressure_equation gamma flux n) dbg cx n bcs lin fvSchemes fvSolution [(t, dt)] st r ->
  exists x K, r = Ok (TState (with_int (ts_phi st) x) (ts_old st)) /\ length x = N /\
    forall i, i <= N -> (conductance N (cx_surf cx gamma) i * (profile N TL TR x (i + 1) - profile N TL TR x i) = rightward N (cx_surfV cx flux) i + K)%Qc.
Proof.
  intros Hc Hr. pose proof (generated_rod _ _ (rc_mesh _ _ _ _ _ _ _ _ _ _ _ Hc)) as HR.
  pose proof (scheme_deltas_are _ _ _ HR (rc_deltas _ _ _ _ _ _ _ _ _ _ _ Hc)) as Hd. destruct (rc_fixed _ _ _ _ _ _ _ _ _ _ _ Hc) as [F1 F2].
  destruct (C100_divergence_free _ _ _ _ _ _ _ _ _ _ _ _ (rod_case_pressure _ _ _ _ _ _ _ _ _ _ _ Hc) Hr) as (f & F0 & -> & Fi).
  change (length [(t, dt)]) with 1. destruct (Fi 0 ltac:(cbn; lia)) as (L & D & O & (B1 & B2 & B3 & B4)). rewrite F0 in *. rewrite (rod_cells _ _ HR) in L, D.
  apply (solution_iff N TL TR cx gamma flux (ts_phi st) HR Hd F1 F2) in D as (K & HK).
  exists (vf_int (ts_phi (f 1))), K. split; [|done]. f_equal. destruct (f 1) as [p o], (ts_phi st) as [i1 i2 i3 i4 i5]. cbn in *. destruct p as [j1 j2 j3 j4 j5]. cbn in *. by subst.
Qed.
Lemma rod_runs_back N TL TR dbg cx bcs lin fvSchemes fvSolution gamma flux n st t dt x K :
  rod_case N TL TR cx lin fvSchemes fvSolution gamma flux n st -> complete_solver lin -> length x = N ->
  (forall i, i <= N -> (conductance N (cx_surf cx gamma) i * (profile N TL TR x (i + 1) - profile N TL TR x i) = rightward N (cx_surfV cx flux) i + K)%Qc) ->
  run_program (pressure_equation gamma flux n) dbg cx n bcs lin fvSchemes fvSolution [(t, dt)] st (Ok (TState (with_int (ts_phi st) x) (ts_old st))).
Proof.
  intros Hc Hl L HK. pose proof (generated_rod _ _ (rc_mesh _ _ _ _ _ _ _ _ _ _ _ Hc)) as HR.
  pose proof (scheme_deltas_are _ _ _ HR (rc_deltas _ _ _ _ _ _ _ _ _ _ _ Hc)) as Hd. destruct (rc_fixed _ _ _ _ _ _ _ _ _ _ _ Hc) as [F1 F2].
  apply C100_every_solution; [by eapply rod_case_pressure|done|by rewrite (rod_cells _ _ HR)|]. rewrite (rod_cells _ _ HR).
  apply (solution_iff N TL TR cx gamma flux (ts_phi st) HR Hd F1 F2). by exists K.
Qed.

Lemma telescope N TL TR x (s : nat -> Qc) : length x = N -> 1 <= N ->
  (forall i, i <= N -> (profile N TL TR x (i + 1) - profile N TL TR x i = s i)%Qc) <->
  TR = (TL + vsum_over (N + 1) s)%Qc /\ forall c, c < N -> at0 x c = (TL + vsum_over (c + 1) s)%Qc.
Proof.
  intros L HN.
  assert (Pc : forall c, c < N -> profile N TL TR x (c + 1) = at0 x c).
  { intros c Hc. unfold profile. rewrite !decide_False by lia. by replace (c + 1 - 1) with c by lia. }
  assert (Pe : profile N TL TR x (N + 1) = TR) by (unfold profile; rewrite decide_False, decide_True by lia; done).
  assert (P0 : profile N TL TR x 0 = TL) by done.
  split.
  - intros H. assert (A : forall i, i <= N + 1 -> profile N TL TR x i = (TL + vsum_over i s)%Qc).
    { induction i as [|i IH]; intros Hi; [rewrite P0; cbn; ring|]. pose proof (H i ltac:(lia)) as E. rewrite IH in E by lia. rewrite vsum_over_S. cbn [vadd Qc_value].
      replace (i + 1) with (S i) in E by lia. revert E. generalize (profile N TL TR x (S i)) (vsum_over i s) (s i). intros u v w E. qc_lra. }
    split; [rewrite <- Pe; by apply A|]. intros c Hc. rewrite <- Pc by done. apply A. lia.
  - intros (HT & Hx) i Hi.
    assert (A : forall j, j <= N + 1 -> profile N TL TR x j = (TL + vsum_over j s)%Qc).
    { intros [|j] Hj; [rewrite P0; cbn; ring|]. destruct (decide (j = N)) as [->|].
      - replace (S N) with (N + 1) by lia. by rewrite Pe.
      - replace (S j) with (j + 1) by lia. rewrite Pc by lia. apply Hx. lia. }
    rewrite !A by lia. replace (i + 1) with (S i) by lia. rewrite vsum_over_S. cbn [vadd Qc_value]. ring.
Qed.
Lemma div_step (G d y : Qc) : G <> 0%Qc -> (G * d = y)%Qc <-> d = (y / G)%Qc.
Proof. intros HG. split; [intros <-|intros ->]; field; done. Qed.
Lemma conductance_nz N gamma i : 1 <= N -> i <= N -> (forall f, f < N + 1 -> at0 gamma f <> 0%Qc) -> conductance N gamma i <> 0%Qc.
Proof.
  intros HN Hi Hg. pose proof (Qc_of_nat_nz N HN) as Hz. unfold conductance. intros E. apply Qcmult_integral in E as [E|E].
  - revert E. apply Hg. unfold position_face. repeat destruct (decide _); lia.
  - destruct (decide _); [|done]. apply Qcmult_integral in E as [E|E]; [|done]. by apply two_nz.
Qed.

(** The results of solve() are exactly the fields with temperature steps in
    proportion to resistance times (given flux + a constant), adding up to TR - TL. *)
Theorem C101_series : forall N TL TR dbg cx bcs lin fvSchemes fvSolution gamma flux n st t dt r,
  rod_case N TL TR cx lin fvSchemes fvSolution gamma flux n st -> complete_solver lin ->
  (forall f, f < N + 1 -> at0 (cx_surf cx gamma) f <> 0%Qc) ->
  run_program (pressure_equation gamma flux n) dbg cx n bcs lin fvSchemes fvSolution [(t, dt)] st r <->
  exists x K, r = Ok (TState (with_int (ts_phi st) x) (ts_old st)) /\ length x = N /\
    let step i := ((rightward N (cx_surfV cx flux) i + K) / conductance N (cx_surf cx gamma) i)%Qc in
    TR = (TL + vsum_over (N + 1) step)%Qc /\ forall c, c < N -> at0 x c = (TL + vsum_over (c + 1) step)%Qc.
Proof.
  intros N TL TR dbg cx bcs lin fvSchemes fvSolution gamma flux n st t dt r Hc Hl Hg.
  pose proof (proj1 (rc_mesh _ _ _ _ _ _ _ _ _ _ _ Hc)) as HN. split.
  - intros Hr. destruct (rod_runs _ _ _ _ _ _ _ _ _ _ _ _ _ _ _ _ Hc Hr) as (x & K & -> & L & HK). exists x, K. split; [done|]. split; [done|]. intros step.
    apply (telescope N TL TR x step L HN). intros i Hi. apply div_step; [by apply conductance_nz|by apply HK].
  - intros (x & K & -> & L & H). eapply rod_runs_back with (K := K); try done. intros i Hi.
    apply div_step; [by apply conductance_nz|]. exact (proj2 (telescope N TL TR x _ L HN) H i Hi).
Qed.
Print Assumptions C101_series.

(** Uniform conductivity [k] and a uniform source: the flux handed in is a x, so
    that its divergence is the constant [a] (for a = 0: conduction only).  The
    exact solution of k T'' = a is TL + (TR - TL) x - a/(2k) x (1 - x). *)
Definition uniform_source (N : nat) (k a : Qc) (gamma flux : list Qc) : Prop :=
  (forall f, f < N + 1 -> at0 gamma f = k) /\
  (forall i, i <= N -> rightward N flux i = (a * (Qc_of_nat i / Qc_of_nat N))%Qc).
Definition exact_profile (TL TR k a z : Qc) : Qc := (TL + (TR - TL) * z - a / ((1 + 1) * k) * (z * (1 - z)))%Qc.
(** ... minus a/(8 k N^2) in each cell. *)
Definition computed_profile (N : nat) (TL TR k a : Qc) : list Qc :=
  map (fun c => exact_profile TL TR k a (centre N c) - a / ((1 + 1) * (1 + 1) * (1 + 1) * k * (Qc_of_nat N * Qc_of_nat N)))%Qc (seq 0 N).

Lemma uniform_conductance N k a gamma flux i : uniform_source N k a gamma flux -> i <= N -> 1 <= N ->
  conductance N gamma i = (if decide (i = 0 \/ i = N)%nat then k * ((1 + 1) * Qc_of_nat N) else k * Qc_of_nat N)%Qc.
Proof. intros [Hg _] Hi HN. unfold conductance. rewrite Hg by (unfold position_face; repeat destruct (decide _); lia). by destruct (decide _). Qed.
Lemma computed_at N TL TR k a c : c < N ->
  at0 (computed_profile N TL TR k a) c = (exact_profile TL TR k a (centre N c) - a / ((1 + 1) * (1 + 1) * (1 + 1) * k * (Qc_of_nat N * Qc_of_nat N)))%Qc.
Proof. intros Hc. unfold computed_profile. by rewrite at0_map_seq. Qed.
(** In other words. *)
Lemma computed_form N TL TR k a c : 1 <= N -> k <> 0%Qc ->
  (exact_profile TL TR k a (centre N c) - a / ((1 + 1) * (1 + 1) * (1 + 1) * k * (Qc_of_nat N * Qc_of_nat N)) =
   TL + (TR - TL - a / ((1 + 1) * k)) * ((Qc_of_nat c + half) / Qc_of_nat N) + a * (Qc_of_nat c * (Qc_of_nat c + 1)) / ((1 + 1) * k * (Qc_of_nat N * Qc_of_nat N)))%Qc.
Proof. intros HN Hk. pose proof (Qc_of_nat_nz N HN). unfold exact_profile, centre. rewrite half_eq. fld. Qed.
Lemma computed_solves N TL TR k a gamma flux : 1 <= N -> k <> 0%Qc -> uniform_source N k a gamma flux ->
  forall i, i <= N -> (conductance N gamma i * (profile N TL TR (computed_profile N TL TR k a) (i + 1) - profile N TL TR (computed_profile N TL TR k a) i)
    = rightward N flux i + (k * (TR - TL) - a / (1 + 1)))%Qc.
Proof.
  intros HN Hk Hu i Hi. pose proof (Qc_of_nat_nz N HN) as Hz. rewrite (uniform_conductance N k a gamma flux i Hu Hi HN). destruct Hu as [_ Hf]. rewrite Hf by done.
  assert (Hp : forall c, c < N -> profile N TL TR (computed_profile N TL TR k a) (c + 1) =
     (TL + (TR - TL - a / ((1 + 1) * k)) * ((Qc_of_nat c + half) / Qc_of_nat N) + a * (Qc_of_nat c * (Qc_of_nat c + 1)) / ((1 + 1) * k * (Qc_of_nat N * Qc_of_nat N)))%Qc).
  { intros c Hc. unfold profile. rewrite !decide_False by lia. replace (c + 1 - 1) with c by lia. rewrite computed_at by done. by apply computed_form. }
  destruct (decide (i = 0)) as [->|H0].
  - rewrite decide_True by auto. rewrite (Hp 0) by lia. change (profile N TL TR (computed_profile N TL TR k a) 0) with TL. rewrite Qc_of_nat_0, half_eq. fld.
  - replace (profile N TL TR (computed_profile N TL TR k a) i) with (profile N TL TR (computed_profile N TL TR k a) (i - 1 + 1)) by (f_equal; lia). rewrite (Hp (i - 1)) by lia. assert (Ei : Qc_of_nat i = (Qc_of_nat (i - 1) + 1)%Qc) by (rewrite <- Qc_of_nat_S; f_equal; lia).
    destruct (decide (i = N)) as [->|H1].
    + rewrite decide_True by auto. assert (profile N TL TR (computed_profile N TL TR k a) (N + 1) = TR) as -> by (unfold profile; rewrite decide_False, decide_True by lia; done).
      assert (Em : Qc_of_nat (N - 1) = (Qc_of_nat N - 1)%Qc) by (rewrite Ei; ring). rewrite Em, half_eq. fld.
    + rewrite decide_False by lia. rewrite (Hp i) by lia. rewrite Ei, half_eq. fld.
Qed.
Lemma profile_unique N TL TR k a gamma flux x K : 1 <= N -> k <> 0%Qc -> uniform_source N k a gamma flux -> length x = N ->
  (forall i, i <= N -> (conductance N gamma i * (profile N TL TR x (i + 1) - profile N TL TR x i) = rightward N flux i + K)%Qc) ->
  x = computed_profile N TL TR k a.
Proof.
  intros HN Hk Hu L H. pose proof (computed_solves N TL TR k a gamma flux HN Hk Hu) as H'. set (y := computed_profile N TL TR k a) in *.
  assert (Ly : length y = N) by (unfold y, computed_profile; by rewrite map_length, seq_length). pose proof (Qc_of_nat_nz N HN) as Hz.
  set (D := (K - (k * (TR - TL) - a / (1 + 1)))%Qc).
  set (d := fun i => (profile N TL TR x i - profile N TL TR y i)%Qc).
  assert (Hd : forall i, i <= N -> (d (i + 1)%nat = d i + D / conductance N gamma i)%Qc).
  { intros i Hi. assert (Hg : conductance N gamma i <> 0%Qc) by (apply conductance_nz; try done; intros f Hf; rewrite (proj1 Hu) by done; done).
    pose proof (proj1 (div_step _ _ _ Hg) (H i Hi)) as E1. pose proof (proj1 (div_step _ _ _ Hg) (H' i Hi)) as E2. unfold d.
    replace (profile N TL TR x (i + 1)) with (profile N TL TR x i + (profile N TL TR x (i + 1)%nat - profile N TL TR x i))%Qc by ring. rewrite E1.
    replace (profile N TL TR y (i + 1)) with (profile N TL TR y i + (profile N TL TR y (i + 1)%nat - profile N TL TR y i))%Qc by ring. rewrite E2. unfold D. field. done. }
  (* d is linear between 0 at both ends *)
  assert (Hc : forall i, i < N -> (d (i + 1)%nat = D / k * ((Qc_of_nat i + half) / Qc_of_nat N))%Qc).
  { induction i as [|i IH]; intros Hi.
    - rewrite (Hd 0) by lia. rewrite (uniform_conductance N k a gamma flux 0 Hu) by lia. rewrite decide_True by auto. unfold d. change (profile N TL TR ?l 0) with TL. rewrite Qc_of_nat_0, half_eq. fld.
    - replace (S i) with (i + 1) by lia. rewrite (Hd (i + 1)), IH by lia. rewrite (uniform_conductance N k a gamma flux (i + 1) Hu), decide_False by lia. rewrite Qc_of_nat_add. change (Qc_of_nat 1) with 1%Qc. rewrite half_eq. fld. }
  assert (He : (d (N + 1)%nat = D / k)%Qc).
  { rewrite (Hd N) by lia. rewrite (uniform_conductance N k a gamma flux N Hu) by lia. rewrite decide_True by auto. replace (d N) with (d (N - 1 + 1)%nat) by (f_equal; lia). rewrite Hc by lia.
    assert (Em : Qc_of_nat N = (Qc_of_nat (N - 1) + 1)%Qc) by (rewrite <- Qc_of_nat_S; f_equal; lia). assert (Em2 : Qc_of_nat (N - 1) = (Qc_of_nat N - 1)%Qc) by (rewrite Em; ring). rewrite Em2, half_eq. fld. }
  assert (D = 0%Qc) as HD.
  { assert (Pe : forall l, profile N TL TR l (N + 1) = TR) by (intros l; unfold profile; rewrite decide_False, decide_True by lia; done).
    assert (d (N + 1)%nat = 0%Qc) as E by (unfold d; rewrite !Pe; ring). rewrite E in He. apply (Qc_mul_reg (/ k)%Qc); [|rewrite Qcmult_0_l; by symmetry].
    intros Z. apply Hk. assert (k * / k = 1)%Qc as E1 by (by apply Qcmult_inv_r). rewrite Z, Qcmult_0_r in E1. discriminate. }
  apply list_eq_same_length with (n := N); [done|done|]. intros c u v Hc' Eu Ev. pose proof (Hc c Hc') as E. rewrite HD in E. unfold d, profile in E.
  rewrite !(decide_False (P := c + 1 = 0)), !(decide_False (P := c + 1 = N + 1)) in E by lia. replace (c + 1 - 1) with c in E by lia.
  unfold at0 in E. rewrite Eu, Ev in E. simpl in E. replace (0 / k * ((Qc_of_nat c + half) / Qc_of_nat N))%Qc with 0%Qc in E by (unfold Qcdiv; ring). clear -E. revert E. intros. qc_lra.
Qed.

(** For every number of cells, solve() returns this field and nothing else: every
    cell value is the exact solution at the cell centre minus a/(8 k N^2). *)
Theorem C101_poisson : forall N TL TR k a dbg cx bcs lin fvSchemes fvSolution gamma flux n st t dt r,
  rod_case N TL TR cx lin fvSchemes fvSolution gamma flux n st ->
  k <> 0%Qc -> uniform_source N k a (cx_surf cx gamma) (cx_surfV cx flux) ->
  (run_program (pressure_equation gamma flux n) dbg cx n bcs lin fvSchemes fvSolution [(t, dt)] st r ->
   r = Ok (TState (with_int (ts_phi st) (computed_profile N TL TR k a)) (ts_old st))) /\
  (complete_solver lin ->
   run_program (pressure_equation gamma flux n) dbg cx n bcs lin fvSchemes fvSolution [(t, dt)] st
     (Ok (TState (with_int (ts_phi st) (computed_profile N TL TR k a)) (ts_old st)))).
Proof.
  intros N TL TR k a dbg cx bcs lin fvSchemes fvSolution gamma flux n st t dt r Hc Hk Hu.
  pose proof (proj1 (rc_mesh _ _ _ _ _ _ _ _ _ _ _ Hc)) as HN. split.
  - intros Hr. destruct (rod_runs _ _ _ _ _ _ _ _ _ _ _ _ _ _ _ _ Hc Hr) as (x & K & -> & L & HK). by rewrite (profile_unique N TL TR k a _ _ x K HN Hk Hu L HK).
  - intros Hl. eapply rod_runs_back; [done|done|unfold computed_profile; by rewrite map_length, seq_length|]. by apply computed_solves.
Qed.
Print Assumptions C101_poisson.

(** ** Such cases exist for every number of cells and all data. *)
Definition source_flux (N : nat) (a : Qc) : list Qc :=
  map (fun f => a * (Qc_of_nat (f + 1) / Qc_of_nat N))%Qc (seq 0 (N - 1)) ++ [0%Qc; a].
Definition rod_ctx (N : nat) (m : mesh) (p : sparsity) (k a : Qc) : ctx Qc :=
  Ctx SerialExecutor m (rod_weights N) (rod_dc N) p (fun _ => replicate (N + 1) k) (fun _ => source_flux N a) (fun _ => phi3)
      (fun _ => []) (fun _ => []) (fun _ => "rAU"%string) (fun _ => "p"%string).
Definition rod_state (N : nat) (TL TR : Qc) (x : list Qc) : tstate := TState (VolField x [TL; TR] [TL; TR] [1; 1]%Qc [0; 0]%Qc) None.
Lemma source_flux_uniform N k a : 1 <= N -> uniform_source N k a (replicate (N + 1) k) (source_flux N a).
Proof.
  intros HN. pose proof (Qc_of_nat_nz N HN) as Hz. split.
  - intros f Hf. unfold at0. by rewrite lookup_replicate_2.
  - assert (Ls : length (map (fun f => a * (Qc_of_nat (f + 1) / Qc_of_nat N))%Qc (seq 0 (N - 1))) = N - 1) by (by rewrite map_length, seq_length).
    intros i Hi. unfold rightward, position_face, at0, source_flux. destruct (decide (i = 0)) as [->|H0].
    + rewrite lookup_app_r by lia. rewrite Ls, Nat.sub_diag. simpl. rewrite Qc_of_nat_0. unfold Qcdiv. ring.
    + destruct (decide (i = N)) as [->|H1].
      * rewrite lookup_app_r by lia. rewrite Ls. replace (N - (N - 1)) with 1 by lia. simpl. field. done.
      * rewrite lookup_app_l by lia. change (map ?f ?l) with (f <$> l). rewrite list_lookup_fmap, lookup_seq_lt by lia. simpl. by replace (i - 1 + 1) with i by lia.
Qed.
Lemma rod_case_exists N TL TR k a x : 1 <= N -> length x = N -> exists m p, generated N m /\
  rod_case N TL TR (rod_ctx N m p k a) solve_exactly schemesP solutionP 0 0 0 (rod_state N TL TR x).
Proof.
  intros HN Lx. destruct (C28_uniform_1d_mesh_defined SerialExecutor N (replicate (N + 1) 0) (replicate (N - 1) 0) HN (replicate_length _ _) (replicate_length _ _)) as (m & Hm).
  assert (Hg : generated N m) by (split; [done|]; exists SerialExecutor, (replicate (N + 1) 0), (replicate (N - 1) 0); split; [apply replicate_length|]; split; [apply replicate_length|done]).
  pose proof (generated_rod _ _ Hg) as HR. destruct (C29_pattern m SerialExecutor (valid_connectivity _ (rod_top _ _ HR)) (rod_fit _ _ HR)) as [(p & Hp) _].
  exists m, p. split; [done|]. split; try done.
  - by apply rod_weights_length.
  - exists SerialExecutor, (replicate (N + 1) 0%R). split; [apply replicate_length|]. apply (rod_nonOrth N m HR); [apply replicate_length|done].
  - by left.
  - apply C48_serial_pattern; [apply (rod_top _ _ HR)|by eapply rod_fit|done].
  - cbn. apply replicate_length.
  - cbn. unfold source_flux. rewrite app_length, map_length, seq_length. simpl. lia.
  - eexists. vm_compute. reflexivity.
  - eexists. vm_compute. reflexivity.
  - apply solve_exactly_exact.
Qed.
Example C101_instance : forall N TL TR k a x, 1 <= N -> length x = N -> k <> 0%Qc -> exists cx,
  rod_case N TL TR cx solve_exactly schemesP solutionP 0 0 0 (rod_state N TL TR x) /\ complete_solver solve_exactly /\
  uniform_source N k a (cx_surf cx 0) (cx_surfV cx 0) /\
  forall r, run_program (pressure_equation 0 0 0) false cx 0 [] solve_exactly schemesP solutionP [(0, 1)]%Qc (rod_state N TL TR x) r <->
    r = Ok (rod_state N TL TR (computed_profile N TL TR k a)).
Proof.
  intros N TL TR k a x HN Lx Hk. destruct (rod_case_exists N TL TR k a x HN Lx) as (m & p & _ & Hc). exists (rod_ctx N m p k a).
  split; [done|]. split; [apply solve_exactly_complete|]. pose proof (source_flux_uniform N k a HN) as Hu. split; [done|]. intros r.
  destruct (C101_poisson N TL TR k a false (rod_ctx N m p k a) [] solve_exactly schemesP solutionP 0 0 0 (rod_state N TL TR x) 0%Qc 1%Qc r Hc Hk Hu) as [A B].
  split; [done|]. intros ->. apply B, solve_exactly_complete.
Qed.
(** Three cells, 10 degrees on the left, 40 on the right, no source. *)
Example C101_instance_numbers : computed_profile 3 (Q2Qc 10) (Q2Qc 40) 1%Qc 0%Qc = [Q2Qc 15; Q2Qc 25; Q2Qc 35].
Proof. reflexivity. Qed.
