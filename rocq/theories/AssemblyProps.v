(** The implicit operators as instances of the generic face and cell assembly. *)
From Verif Require Import Base Par Exec Value Kernel KernelProofs Mesh MeshSpec Coeff FV FVSpec FVProofs
  Sparsity SparsitySpec Assembly AssemblySpec AssemblyProofs.

(** The same boundary data with internal values [x]. *)
Definition with_int {V} (phi : volField V) (x : list V) : volField V :=
  VolField x (vf_value phi) (vf_refValue phi) (vf_valueFraction phi) (vf_refGrad phi).

Section ops.
  Context {V : Type} `{HL : ValueLaws V} `{HU : ValueUnit V} `{HUL : !UnitLaws V}.
  Context (m : mesh) (Hm : valid_topology m) (p : sparsity) (Hp : pattern_rows m p) (Hpl : pattern_located m p).
  Notation mem := (list (list V)).
  Notation slot := (loc_slot m p).
  Notation own f := (atn (faceOwner m) f).
  Notation nei f := (atn (faceNeighbour m) f).
  Notation fc b := (atn (bFaceCells (bmesh m)) b).
  Notation nI := (nInternalFaces m).
  Notation nB := (nBoundaryFaces m).
  Notation nC := (nCells m).
  Add Ring Vring2 : (V_ring (V := V)).

  Lemma rp_lookup c : c < nC -> sp_rowPtrs p !! c = Some (atn (sp_rowPtrs p) c).
  Proof. intros Hc. apply lookup_atn. rewrite (pr_rp_len _ _ Hp). lia. Qed.
  Lemma diag_lookup c : c < nC -> sp_diagOffset p !! c = Some (atn (sp_diagOffset p) c).
  Proof. intros Hc. apply lookup_atn. pose proof (pr_rows _ _ Hp). unfold sp_rows in *. lia. Qed.
  Lemma ownoff_lookup f : f < nI -> sp_ownerOffset p !! f = Some (atn (sp_ownerOffset p) f).
  Proof. intros Hf. apply lookup_atn. by rewrite (pr_own_len _ _ Hp). Qed.
  Lemma neioff_lookup f : f < nI -> sp_neighbourOffset p !! f = Some (atn (sp_neighbourOffset p) f).
  Proof. intros Hf. apply lookup_atn. by rewrite (pr_nei_len _ _ Hp). Qed.

  Ltac units := repeat rewrite ?(vscale_unit _ (vscale _ _)), ?(vscale_unit _ (vadd _ _)), ?(vscale_unit _ (vmul _ _)), ?unit_mul, ?unit_sub, ?unit_add, ?unit_opp, ?unit_1, ?unit_0.

  (** ** Divergence *)
  Section div.
    Context (flux : list Qc) (phi : volField V) (scaling : Coeff).
    Context (Hfl : length flux = nFaces m) (Hb : boundary_ok m phi) (Hsc : coeff_ok scaling nC).
    Notation sc := (coeff_val scaling).
    Let w f : Qc := if Qclt_le_dec (at0 flux f) 0 then 0%Qc else 1%Qc.
    Let val f : V := vscale (- w f * at0 flux f)%Qc vone.
    Let val' f : V := vscale (at0 flux f * (1 - w f))%Qc vone.
    Definition div_delta : loc -> V :=
      delta m (fun f => vscale (sc (nei f)) (val f)) (fun f => vscale (sc (own f)) (val' f))
        (fun f => vscale (sc (own f)) (val f)) (fun f => vscale (sc (nei f)) (val' f))
        (fun b => vscale (at0 flux (nI + b) * sc (fc b) * (1 - at0 (vf_valueFraction phi) b))%Qc vone).

    Theorem div_assembled e (values rhs : list V) : no_boundary_race e m -> sys_ok m p values rhs ->
      exists values' rhs', always (computeDivImp e m p (sp_rowPtrs p) flux phi scaling [values; rhs]) [values'; rhs'] /\
        sys_ok m p values' rhs' /\
        (forall l, loc_valid m l -> atV values' (slot l) = vadd (atV values (slot l)) (div_delta l)) /\
        forall x c, c < nC -> residual p values' rhs' x c = vadd (residual p values rhs x c)
          (vscale (sc c) (cell_balance m (fun f => vscale (at0 flux f) (implicit_face_value m (with_int phi x) flux f)) c)).
    Proof using Hm Hp Hpl Hfl Hb Hsc HL HUL.
      intros Hrace [Hlv Hlr]. destruct Hb as (Hb1 & Hb2 & Hb3). pose proof (vt_faces m Hm) as Hnf.
      destruct (face_assembly m Hm p Hpl
        (fun f => vscale (sc (nei f)) (val f)) (fun f => vscale (sc (own f)) (val' f))
        (fun f => vscale (sc (own f)) (val f)) (fun f => vscale (sc (nei f)) (val' f))
        (fun b => vscale (at0 flux (nI + b) * sc (fc b) * (1 - at0 (vf_valueFraction phi) b))%Qc vone)
        (fun b => vscale (at0 flux (nI + b) * sc (fc b))%Qc (vscale (at0 (vf_valueFraction phi) b) (atV (vf_refValue phi) b)))
        (divImp_internal m p (sp_rowPtrs p) flux scaling) (divImp_boundary m p (sp_rowPtrs p) flux scaling phi)
        (fun b => SAdd (0, slot (Diag (fc b))) (vscale (at0 flux (nI + b) * sc (fc b) * (1 - at0 (vf_valueFraction phi) b))%Qc vone)))
        with (e := e) (values := values) (rhs := rhs) as (v' & r' & Hr & Hlv' & Hlr' & Hv & Hrr); try done.
      - intros f Hf. unfold divImp_internal. pose proof (owner_lt m Hm f Hf). pose proof (nei_lt' m Hm f Hf).
        rewrite (lookup_at0 flux f), (owner_lookup m Hm f Hf), (nei_lookup m Hm f Hf) by lia. cbn [mbind option_bind].
        rewrite !rp_lookup, !diag_lookup, (ownoff_lookup f Hf), (neioff_lookup f Hf) by done.
        rewrite !(coeff_lookup scaling nC) by done. done.
      - intros b Hbb. unfold divImp_boundary. replace (nI + b - nI) with b by lia.
        pose proof (fc_lt' m Hm b Hbb).
        rewrite (lookup_at0 flux (nI + b)), (fc_lookup m Hm b Hbb) by lia. cbn [mbind option_bind].
        rewrite rp_lookup, diag_lookup, (coeff_lookup scaling nC) by done. cbn [mbind option_bind].
        rewrite (lookup_at0 (vf_valueFraction phi) b), (lookup_atV (vf_refValue phi) b) by lia. done.
      - exists v', r'. split.
        { unfold always, computeDivImp. rewrite Hfl, Hnf. exact Hr. }
        split; [done|]. split; [exact Hv|].
        intros x c Hc. refine (face_residual m Hm p Hp Hpl _ _ _ _ _ _ _ _ _ _ x sc _ Hv Hrr _ _ _ c Hc).
        + intros f Hf. cbv beta. unfold implicit_face_value. rewrite decide_True by done.
          unfold at_owner, at_neighbour, val, val', w. cbn [vf_int with_int].
          generalize (atV x (nei f)) (atV x (own f)). intros xn xo.
          destruct (Qclt_le_dec (at0 flux f) 0);
            [rewrite !(vscale_unit _ xn)|rewrite !(vscale_unit _ xo)]; units; ring.
        + intros f Hf. cbv beta. unfold implicit_face_value. rewrite decide_True by done.
          unfold at_owner, at_neighbour, val, val', w. cbn [vf_int with_int].
          generalize (atV x (nei f)) (atV x (own f)). intros xn xo.
          destruct (Qclt_le_dec (at0 flux f) 0);
            [rewrite !(vscale_unit _ xn)|rewrite !(vscale_unit _ xo)]; units; ring.
        + intros b Hbb. cbv beta zeta. unfold implicit_face_value. rewrite decide_False by lia.
          replace (nI + b - nI) with b by lia. unfold at_face_cell. cbn [vf_int with_int vf_refValue vf_valueFraction].
          generalize (atV x (fc b)) (atV (vf_refValue phi) b). intros xb ref.
          rewrite (vscale_unit _ xb), (vscale_unit _ ref). units. ring.
    Qed.
  End div.

  (** ** Laplacian *)
  Section lap.
    Context (dc gamma : list Qc) (phi : volField V) (scaling : Coeff).
    Context (Hdc : length dc = nFaces m) (Hg : length gamma = nFaces m) (Hmag : length (magFaceAreas m) = nFaces m)
            (Hb : boundary_ok m phi) (Hsc : coeff_ok scaling nC).
    Notation sc := (coeff_val scaling).
    Let fl f : V := vscale (at0 dc f * at0 gamma f * at0 (magFaceAreas m) f)%Qc vone.
    Definition lap_delta : loc -> V :=
      delta m (fun f => vscale (sc (nei f)) (fl f)) (fun f => vscale (sc (own f)) (fl f))
        (fun f => vscale (sc (own f)) (fl f)) (fun f => vscale (sc (nei f)) (fl f))
        (fun b => vneg (vscale (at0 gamma (nI + b) * at0 (magFaceAreas m) (nI + b) * sc (fc b) *
                    at0 (vf_valueFraction phi) b * at0 dc (nI + b))%Qc vone)).

    Theorem lap_assembled e (values rhs : list V) : no_boundary_race e m -> sys_ok m p values rhs ->
      exists values' rhs', always (computeLaplacianImpl e m p (sp_rowPtrs p) dc gamma phi scaling [values; rhs]) [values'; rhs'] /\
        sys_ok m p values' rhs' /\
        (forall l, loc_valid m l -> atV values' (slot l) = vadd (atV values (slot l)) (lap_delta l)) /\
        forall x c, c < nC -> residual p values' rhs' x c = vadd (residual p values rhs x c)
          (vscale (sc c) (cell_balance m (fun f => vscale (at0 gamma f * at0 (magFaceAreas m) f)%Qc
             (implicit_normal_gradient m (with_int phi x) dc f)) c)).
    Proof using Hm Hp Hpl Hdc Hg Hmag Hb Hsc HL HUL.
      intros Hrace [Hlv Hlr]. destruct Hb as (Hb1 & Hb2 & Hb3). pose proof (vt_faces m Hm) as Hnf.
      destruct (face_assembly m Hm p Hpl
        (fun f => vscale (sc (nei f)) (fl f)) (fun f => vscale (sc (own f)) (fl f))
        (fun f => vscale (sc (own f)) (fl f)) (fun f => vscale (sc (nei f)) (fl f))
        (fun b => vneg (vscale (at0 gamma (nI + b) * at0 (magFaceAreas m) (nI + b) * sc (fc b) *
                    at0 (vf_valueFraction phi) b * at0 dc (nI + b))%Qc vone))
        (fun b => vscale (at0 gamma (nI + b) * at0 (magFaceAreas m) (nI + b) * sc (fc b))%Qc
                    (vadd (vscale (at0 (vf_valueFraction phi) b * at0 dc (nI + b))%Qc (atV (vf_refValue phi) b))
                          (vscale (1 - at0 (vf_valueFraction phi) b)%Qc (atV (vf_refGrad phi) b))))
        (lapImp_internal m p (sp_rowPtrs p) dc gamma scaling) (lapImp_boundary m p (sp_rowPtrs p) dc gamma scaling phi)
        (fun b => SSub (0, slot (Diag (fc b))) (vscale (at0 gamma (nI + b) * at0 (magFaceAreas m) (nI + b) * sc (fc b) *
                    at0 (vf_valueFraction phi) b * at0 dc (nI + b))%Qc vone)))
        with (e := e) (values := values) (rhs := rhs) as (v' & r' & Hr & Hlv' & Hlr' & Hv & Hrr); try done.
      - intros f Hf. unfold lapImp_internal. pose proof (owner_lt m Hm f Hf). pose proof (nei_lt' m Hm f Hf).
        rewrite (lookup_at0 dc f), (lookup_at0 gamma f), (lookup_at0 (magFaceAreas m) f),
          (owner_lookup m Hm f Hf), (nei_lookup m Hm f Hf) by lia. cbn [mbind option_bind].
        rewrite !rp_lookup, !diag_lookup, (ownoff_lookup f Hf), (neioff_lookup f Hf) by done.
        rewrite !(coeff_lookup scaling nC) by done. done.
      - intros b Hbb. unfold lapImp_boundary. replace (nI + b - nI) with b by lia.
        pose proof (fc_lt' m Hm b Hbb).
        rewrite (lookup_at0 gamma (nI + b)), (lookup_at0 (magFaceAreas m) (nI + b)), (fc_lookup m Hm b Hbb) by lia.
        cbn [mbind option_bind].
        rewrite rp_lookup, diag_lookup, (coeff_lookup scaling nC) by done. cbn [mbind option_bind].
        rewrite (lookup_at0 (vf_valueFraction phi) b), (lookup_at0 dc (nI + b)), (lookup_atV (vf_refValue phi) b),
          (lookup_atV (vf_refGrad phi) b) by lia. done.
      - exists v', r'. split.
        { unfold always, computeLaplacianImpl. rewrite Hg, Hnf. exact Hr. }
        split; [done|]. split; [exact Hv|].
        intros x c Hc. refine (face_residual m Hm p Hp Hpl _ _ _ _ _ _ _ _ _ _ x sc _ Hv Hrr _ _ _ c Hc).
        + intros f Hf. cbv beta. unfold implicit_normal_gradient. rewrite decide_True by done.
          unfold at_owner, at_neighbour, fl. cbn [vf_int with_int].
          generalize (atV x (nei f)) (atV x (own f)). intros xn xo.
          rewrite (vscale_unit _ (vsub xn xo)). units. ring.
        + intros f Hf. cbv beta. unfold implicit_normal_gradient. rewrite decide_True by done.
          unfold at_owner, at_neighbour, fl. cbn [vf_int with_int].
          generalize (atV x (nei f)) (atV x (own f)). intros xn xo.
          rewrite (vscale_unit _ (vsub xn xo)). units. ring.
        + intros b Hbb. cbv beta zeta. unfold implicit_normal_gradient. rewrite decide_False by lia.
          replace (nI + b - nI) with b by lia. unfold at_face_cell.
          cbn [vf_int with_int vf_refValue vf_valueFraction vf_refGrad].
          generalize (atV x (fc b)) (atV (vf_refValue phi) b) (atV (vf_refGrad phi) b). intros xb ref rg.
          rewrite (vscale_unit _ (vsub ref xb)), (vscale_unit _ ref), !(vscale_unit _ rg). units. ring.
    Qed.
  End lap.

  (** ** Cell-wise operators *)
  Section cells.
    Context (k : kernel V) (dd rr : nat -> V) (both : bool).
    Context (Hk : forall c, c < nC -> k c = Some (SAdd (0, slot (Diag c)) (dd c) ::
                    if both then [SAdd (1, c) (rr c)] else [])).

    Theorem cell_assembly e (values rhs : list V) : sys_ok m p values rhs ->
      exists values' rhs', (forall r, pfor e 0 nC k [values; rhs] r <-> r = Some [values'; rhs']) /\
        sys_ok m p values' rhs' /\
        (forall l, loc_valid m l -> atV values' (slot l) =
           match l with Diag c => vadd (atV values (slot (Diag c))) (dd c) | _ => atV values (slot l) end) /\
        (forall c, c < nC -> atV rhs' c = if both then vadd (atV rhs c) (rr c) else atV rhs c) /\
        forall x c, c < nC -> residual p values' rhs' x c = vadd (residual p values rhs x c)
          (vsub (vmul (dd c) (atV x c)) (if both then rr c else vzero)).
    Proof using Hk Hm Hp Hpl HL HUL.
      intros [Hlv Hlr].
      destruct (pfor_additive e 0 nC k [values; rhs]) as (m' & Hr & Hsh & Hg).
      { intros c Hc. eexists. split; [apply Hk; lia|]. rewrite shape2, Hlv, Hlr. constructor.
        - simpl. apply in_shape2_0. apply (slot_lt m p Hpl (Diag c)). simpl. lia.
        - destruct both; repeat constructor. simpl. apply in_shape2_1. lia. }
      { intros i j s t Hi Hj Hij Hs Ht E. exfalso. unfold stmts_of in Hs, Ht. rewrite Hk in Hs, Ht by lia. simpl in Hs, Ht.
        assert (Ha : forall i s, s ∈ SAdd (0, slot (Diag i)) (dd i) :: (if both then [SAdd (1, i) (rr i)] else []) ->
          stmt_addr s = (0, slot (Diag i)) \/ stmt_addr s = (1, i)).
        { clear. intros i s Hs. apply elem_of_cons in Hs as [->|Hs]; [by left|]. destruct both; [|by apply elem_of_nil in Hs].
          apply elem_of_list_singleton in Hs as ->. by right. }
        apply Ha in Hs, Ht.
        destruct Hs as [Hs|Hs], Ht as [Ht|Ht]; rewrite Hs, Ht in E; try congruence.
        assert (Diag i = Diag j) as [= ->]; [|done]. apply (pl_inj _ _ Hpl); simpl; [lia|lia|]. injection E. done. }
      { intros c s Hc Hs. unfold stmts_of in Hs. rewrite Hk in Hs by lia. simpl in Hs.
        apply elem_of_cons in Hs as [->|Hs]; [done|]. destruct both; [|by apply elem_of_nil in Hs].
        by apply elem_of_list_singleton in Hs as ->. }
      rewrite shape2 in Hsh. apply shape2_inv in Hsh as (values' & rhs' & -> & Hlv' & Hlr').
      rewrite Nat.sub_0_r in Hg. cbn [Nat.add] in Hg.
      assert (Hst : forall c, c < nC -> stmts_of k c = SAdd (0, slot (Diag c)) (dd c) ::
                    if both then [SAdd (1, c) (rr c)] else []).
      { intros c Hc. unfold stmts_of. by rewrite Hk. }
      assert (Hval : forall l, loc_valid m l -> atV values' (slot l) =
           match l with Diag c => vadd (atV values (slot (Diag c))) (dd c) | _ => atV values (slot l) end).
      { intros l Hl. specialize (Hg (0, slot l)). unfold mget in Hg. pose proof (slot_lt m p Hpl l Hl) as Hsl.
        change (values' !! slot l = (fun x => vadd x (vsum_over nC (fun i => vsum (map (contrib (0, slot l)) (stmts_of k i)))))
                  <$> (values !! slot l)) in Hg.
        rewrite (lookup_atV values (slot l)) in Hg by lia. unfold atV at 1. rewrite Hg. simpl default.
        rewrite (vsum_over_ext nC _ (fun c => if decide (Diag c = l) then dd c else vzero)).
        2:{ intros c Hc. rewrite Hst by done. cbn [map vsum]. rewrite contrib_delta. cbn [stmt_addr stmt_delta].
            rewrite slot_dec by done. destruct both; cbn [map vsum]; rewrite ?contrib_delta; cbn [stmt_addr];
            rewrite ?(decide_False (P := (1, c) = (0, slot l))) by congruence; ring. }
        destruct l as [c|f0|f0].
        - f_equal. rewrite <- (vsum_over_single nC c (dd c)) by done. apply vsum_over_ext. intros i Hi.
          destruct (decide (i = c)) as [->|]; [by rewrite decide_True|]. rewrite decide_False; [done|congruence].
        - rewrite vsum_over_zero; [apply vadd_0_r|]. intros i Hi. by rewrite decide_False.
        - rewrite vsum_over_zero; [apply vadd_0_r|]. intros i Hi. by rewrite decide_False. }
      assert (Hrhs : forall c, c < nC -> atV rhs' c = if both then vadd (atV rhs c) (rr c) else atV rhs c).
      { intros c Hc. specialize (Hg (1, c)). unfold mget in Hg.
        change (rhs' !! c = (fun x => vadd x (vsum_over nC (fun i => vsum (map (contrib (1, c)) (stmts_of k i)))))
                  <$> (rhs !! c)) in Hg.
        rewrite (lookup_atV rhs c) in Hg by lia. unfold atV at 1. rewrite Hg. simpl default.
        rewrite (vsum_over_ext nC _ (fun i => if decide (i = c) then (if both then rr c else vzero) else vzero)).
        2:{ intros i Hi. rewrite Hst by done. cbn [map vsum]. rewrite contrib_delta. cbn [stmt_addr stmt_delta].
            rewrite decide_False by congruence. destruct both; cbn [map vsum]; rewrite ?contrib_delta; cbn [stmt_addr stmt_delta].
            - destruct (decide ((1, i) = (1, c))), (decide (i = c)); try congruence; subst; ring.
            - destruct (decide (i = c)); ring. }
        rewrite vsum_over_single by done. destruct both; [done|apply vadd_0_r]. }
      exists values', rhs'. split; [done|]. split; [split; congruence|]. split; [done|]. split; [done|].
      intros x c Hc. unfold residual. rewrite !(mat_row_mesh m p Hp Hpl) by done. rewrite (Hval (Diag c)), Hrhs by done.
      rewrite (vsum_over_ext nI (fun f => if decide (own f = c) then vmul (atV values' (slot (Upper f))) (atV x (nei f)) else vzero)
         (fun f => if decide (own f = c) then vmul (atV values (slot (Upper f))) (atV x (nei f)) else vzero))
        by (intros f Hf; by rewrite (Hval (Upper f))).
      rewrite (vsum_over_ext nI (fun f => if decide (nei f = c) then vmul (atV values' (slot (Lower f))) (atV x (own f)) else vzero)
         (fun f => if decide (nei f = c) then vmul (atV values (slot (Lower f))) (atV x (own f)) else vzero))
        by (intros f Hf; by rewrite (Hval (Lower f))).
      destruct both; ring.
    Qed.
  End cells.

  Theorem source_assembled e scaling (coeff : list Qc) (values rhs : list V) :
    coeff_ok scaling nC -> length coeff = nC -> sys_ok m p values rhs ->
    exists values' rhs', always (source_implicit e m p (sp_rowPtrs p) scaling coeff [values; rhs]) [values'; rhs'] /\
      sys_ok m p values' rhs' /\ (forall c, c < nC -> atV rhs' c = atV rhs c) /\
      (forall l, loc_valid m l -> atV values' (slot l) = match l with
         | Diag c => vadd (atV values (slot (Diag c))) (vscale (coeff_val scaling c * at0 coeff c * at0 (cellVolumes m) c)%Qc vone)
         | _ => atV values (slot l) end) /\
      forall x c, c < nC -> residual p values' rhs' x c = vadd (residual p values rhs x c)
        (vscale (coeff_val scaling c * at0 coeff c * at0 (cellVolumes m) c)%Qc (atV x c)).
  Proof using Hm Hp Hpl HL HUL.
    intros Hsc Hlc Hs.
    destruct (cell_assembly (fun celli =>
      row ← sp_rowPtrs p !! celli;
      d ← sp_diagOffset p !! celli;
      s ← coeff_at scaling celli;
      k ← coeff !! celli;
      v ← cellVolumes m !! celli;
      Some [SAdd (0, row + d) (vscale (s * k * v)%Qc vone)])
      (fun c => vscale (coeff_val scaling c * at0 coeff c * at0 (cellVolumes m) c)%Qc vone) (fun _ => vzero) false)
      with (e := e) (values := values) (rhs := rhs) as (v' & r' & Hr & Hok & Hv & Hrr & Hres); [|done|].
    - intros c Hc. rewrite rp_lookup, diag_lookup, (coeff_lookup scaling nC), (lookup_at0 coeff), (vol_lookup m Hm) by (done || lia). done.
    - exists v', r'. split; [unfold always, source_implicit; rewrite Hlc; exact Hr|].
      split; [done|]. split; [done|]. split; [done|].
      intros x c Hc. rewrite Hres by done. f_equal. rewrite (vscale_unit _ (atV x c)). ring.
  Qed.

  Theorem ddt_assembled e scaling (dt : Qc) (old : list V) (values rhs : list V) :
    coeff_ok scaling nC -> length old = nC -> sys_ok m p values rhs ->
    exists values' rhs', always (ddt_implicit e m p (sp_rowPtrs p) scaling dt old [values; rhs]) [values'; rhs'] /\
      sys_ok m p values' rhs' /\
      (forall c, c < nC -> atV rhs' c = vadd (atV rhs c) (vscale (coeff_val scaling c * at0 (cellVolumes m) c * (1 / dt))%Qc (atV old c))) /\
      (forall l, loc_valid m l -> atV values' (slot l) = match l with
         | Diag c => vadd (atV values (slot (Diag c))) (vscale (coeff_val scaling c * at0 (cellVolumes m) c * (1 / dt))%Qc vone)
         | _ => atV values (slot l) end) /\
      forall x c, c < nC -> residual p values' rhs' x c = vadd (residual p values rhs x c)
        (vscale (coeff_val scaling c * at0 (cellVolumes m) c * (1 / dt))%Qc (vsub (atV x c) (atV old c))).
  Proof using Hm Hp Hpl HL HUL.
    intros Hsc Hlo Hs.
    destruct (cell_assembly (fun celli =>
      row ← sp_rowPtrs p !! celli;
      d ← sp_diagOffset p !! celli;
      s ← coeff_at scaling celli;
      v ← cellVolumes m !! celli;
      let commonCoef := (s * v * (1 / dt))%Qc in
      o ← old !! celli;
      Some [ SAdd (0, row + d) (vscale commonCoef vone);
             SAdd (1, celli) (vscale commonCoef o) ])
      (fun c => vscale (coeff_val scaling c * at0 (cellVolumes m) c * (1 / dt))%Qc vone)
      (fun c => vscale (coeff_val scaling c * at0 (cellVolumes m) c * (1 / dt))%Qc (atV old c)) true)
      with (e := e) (values := values) (rhs := rhs) as (v' & r' & Hr & Hok & Hv & Hrr & Hres); [|done|].
    - intros c Hc. rewrite rp_lookup, diag_lookup, (coeff_lookup scaling nC), (vol_lookup m Hm) by (done || lia).
      cbn [mbind option_bind]. rewrite (lookup_atV old) by lia. done.
    - exists v', r'. split; [unfold always, ddt_implicit; rewrite Hlo; exact Hr|].
      split; [done|]. split; [done|]. split; [done|].
      intros x c Hc. rewrite Hres by done. f_equal. rewrite (vscale_unit _ (vsub _ _)), (vscale_unit _ (atV old c)). ring.
  Qed.
End ops.
