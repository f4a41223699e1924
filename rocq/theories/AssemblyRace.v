(** The boundary loops of the implicit operators on a parallel executor: for two
    boundary faces of one cell some schedule loses the second one's update. *)
From Verif Require Import Base Par ParProofs Exec Value Kernel KernelProofs KernelRace Mesh MeshSpec Coeff FV FVSpec FVProofs
  Sparsity SparsitySpec Assembly AssemblySpec AssemblyProofs AssemblyProps.

Section race.
  Context {V : Type} `{HL : ValueLaws V} `{HU : ValueUnit V} `{HUL : !UnitLaws V}.
  Context (m : mesh) (Hm : valid_topology m) (p : sparsity) (Hp : pattern_rows m p) (Hpl : pattern_located m p).
  Notation mem := (list (list V)).
  Notation slot := (loc_slot m p).
  Notation own f := (atn (faceOwner m) f).
  Notation nei f := (atn (faceNeighbour m) f).
  Notation fc b := (atn (bFaceCells (bmesh m)) b).
  Notation nI := (nInternalFaces m).
  Notation nB := (nBoundaryFaces m).
  Notation nC := (nCells m).
  Add Ring Vring3 : (V_ring (V := V)).

  Lemma serial_run e start stop (k : kernel V) mm x :
    pfor SerialExecutor start stop k mm (Some x) -> pfor e start stop k mm (Some x).
  Proof. intros E. destruct e; [done|..]; apply serial_par; exact E. Qed.

  Section faces.
    Context (lo up dO dN bd br : nat -> V) (kI kB : kernel V) (sb : nat -> stmt V).
    Context (HkI : forall f, f < nI -> kI f = Some (ibody m p lo up dO dN f)).
    Context (HkB : forall b, b < nB -> kB (nI + b) = Some [sb b; SSub (1, fc b) (br b)]).
    Context (Hsb : forall b, b < nB -> stmt_addr (sb b) = (0, slot (Diag (fc b))) /\ additive (sb b) = true /\
                stmt_delta (sb b) = bd b).
    Context (Hpls : forall b, b < nB -> plain (sb b)).

    Theorem face_race e (values rhs : list V) b b' : e <> SerialExecutor ->
      length values = sp_nnz p -> length rhs = nC -> b < nB -> b' < nB -> b <> b' -> fc b = fc b' ->
      (exists vs rs vc rc,
        pseq (pfor SerialExecutor 0 nI kI) (pfor SerialExecutor nI (nI + nB) kB) [values; rhs] (Some [vs; rs]) /\
        pseq (pfor e 0 nI kI) (pfor e nI (nI + nB) kB) [values; rhs] (Some [vc; rc]) /\
        sys_ok m p vc rc /\ sys_ok m p vs rs /\
        atV vs (slot (Diag (fc b'))) = vadd (atV vc (slot (Diag (fc b')))) (bd b')) /\
      (exists vs rs vc rc,
        pseq (pfor SerialExecutor 0 nI kI) (pfor SerialExecutor nI (nI + nB) kB) [values; rhs] (Some [vs; rs]) /\
        pseq (pfor e 0 nI kI) (pfor e nI (nI + nB) kB) [values; rhs] (Some [vc; rc]) /\
        sys_ok m p vc rc /\ sys_ok m p vs rs /\
        atV rs (fc b') = vsub (atV rc (fc b')) (br b')).
    Proof using HkI HkB Hsb Hpls Hpl Hm HL HUL.
      intros He Hlv Hlr Hb Hb' Hne Hfc.
      destruct (face_internal m Hm p Hpl lo up dO dN kI HkI SerialExecutor values rhs Hlv Hlr) as (v1 & H1 & Hl1 & _).
      assert (H1s : pfor SerialExecutor 0 nI kI [values; rhs] (Some [v1; rhs])) by by apply H1.
      assert (H1' : pfor e 0 nI kI [values; rhs] (Some [v1; rhs])) by by apply serial_run.
      assert (Hst : forall i, nI <= i < nI + nB -> kB i = Some [sb (i - nI); SSub (1, fc (i - nI)) (br (i - nI))]).
      { intros i Hi. replace i with (nI + (i - nI)) at 1 by lia. apply HkB. lia. }
      assert (Hok : kernel_ok (shape [v1; rhs]) nI (nI + nB) kB).
      { intros i Hi. eexists. split; [by apply Hst|]. rewrite shape2, Hl1, Hlr.
        destruct (Hsb (i - nI) ltac:(lia)) as (E & _). repeat constructor; simpl.
        - rewrite E. apply in_shape2_0, (slot_lt m p Hpl), (loc_fc m Hm). lia.
        - apply in_shape2_1, (fc_lt' m Hm). lia. }
      assert (Hadd : kernel_additive nI (nI + nB) kB).
      { intros i s Hi Hs. unfold stmts_of in Hs. rewrite Hst in Hs by done. simpl in Hs.
        apply elem_of_cons in Hs as [->|Hs]; [apply Hsb; lia|]. by apply elem_of_list_singleton in Hs as ->. }
      destruct (Hsb b Hb) as (Eb & _ & _). destruct (Hsb b' Hb') as (Eb' & _ & Edb').
      assert (Hst' : stmts_of kB (nI + b') = [sb b'; SSub (1, fc b') (br b')]) by (unfold stmts_of; by rewrite HkB).
      assert (Hdlt : slot (Diag (fc b')) < sp_nnz p) by (by apply (slot_lt m p Hpl), (loc_fc m Hm)).
      pose proof (fc_lt' m Hm b' Hb') as Hfclt.
      split.
      - destruct (lost_update e nI (nI + nB) kB [v1; rhs] (nI + b) (nI + b') [] (sb b) [SSub (1, fc b) (br b)])
          as (mc & ms & Hc & Hs & Sc & Ss & G); try done; try lia; [by apply HkB|by apply Hpls|..].
        { repeat constructor. rewrite Eb. cbn. congruence. }
        rewrite shape2 in Sc, Ss. apply shape2_inv in Sc as (vc & rc & -> & Lc1 & Lc2). apply shape2_inv in Ss as (vs & rs & -> & Ls1 & Ls2).
        exists vs, rs, vc, rc.
        split; [right; by exists [v1; rhs]|]. split; [right; by exists [v1; rhs]|].
        split; [split; congruence|]. split; [split; congruence|].
        rewrite Hst' in G. cbn [map vsum foldr] in G. rewrite Eb, Hfc in G.
        change (vs !! slot (Diag (fc b')) = (fun x => vadd x (vadd (contrib (0, slot (Diag (fc b'))) (sb b'))
            (vadd (contrib (0, slot (Diag (fc b'))) (SSub (1, fc b') (br b'))) vzero))) <$> (vc !! slot (Diag (fc b')))) in G.
        rewrite (lookup_atV vc) in G by lia. unfold atV at 1. rewrite G. cbn [fmap option_fmap option_map default]. 
        rewrite !contrib_delta, Eb', Edb'. rewrite decide_True by done. rewrite decide_False by (cbn; congruence). unfold id. f_equal. ring.
      - destruct (lost_update e nI (nI + nB) kB [v1; rhs] (nI + b) (nI + b') [sb b] (SSub (1, fc b) (br b)) [])
          as (mc & ms & Hc & Hs & Sc & Ss & G); try done; try lia; [by apply HkB|..].
        { repeat constructor. rewrite Eb. cbn. congruence. }
        rewrite shape2 in Sc, Ss. apply shape2_inv in Sc as (vc & rc & -> & Lc1 & Lc2). apply shape2_inv in Ss as (vs & rs & -> & Ls1 & Ls2).
        exists vs, rs, vc, rc.
        split; [right; by exists [v1; rhs]|]. split; [right; by exists [v1; rhs]|].
        split; [split; congruence|]. split; [split; congruence|].
        rewrite Hst' in G. cbn [map vsum foldr stmt_addr] in G. rewrite Hfc in G.
        change (rs !! fc b' = (fun x => vadd x (vadd (contrib (1, fc b') (sb b'))
            (vadd (contrib (1, fc b') (SSub (1, fc b') (br b'))) vzero))) <$> (rc !! fc b')) in G.
        rewrite (lookup_atV rc) in G by lia. unfold atV at 1. rewrite G. cbn [fmap option_fmap option_map default].
        rewrite !contrib_delta, Eb', Edb'. rewrite decide_False by congruence. rewrite decide_True by done. cbn [stmt_delta]. unfold id. ring.
    Qed.
  End faces.

  Section div.
    Context (flux : list Qc) (phi : volField V) (scaling : Coeff).
    Context (Hfl : length flux = nFaces m) (Hb : boundary_ok m phi) (Hsc : coeff_ok scaling nC).
    Notation sc := (coeff_val scaling).
    Let w f : Qc := if Qclt_le_dec (at0 flux f) 0 then 0%Qc else 1%Qc.
    Let val f : V := vscale (- w f * at0 flux f)%Qc vone.
    Let val' f : V := vscale (at0 flux f * (1 - w f))%Qc vone.

    Theorem div_race_general e (values rhs : list V) b b' : e <> SerialExecutor -> sys_ok m p values rhs ->
      b < nB -> b' < nB -> b <> b' -> fc b = fc b' ->
      (exists vs rs vc rc,
        computeDivImp SerialExecutor m p (sp_rowPtrs p) flux phi scaling [values; rhs] (Some [vs; rs]) /\
        computeDivImp e m p (sp_rowPtrs p) flux phi scaling [values; rhs] (Some [vc; rc]) /\
        sys_ok m p vc rc /\ sys_ok m p vs rs /\
        atV vs (slot (Diag (fc b'))) = vadd (atV vc (slot (Diag (fc b'))))
          (vscale (at0 flux (nI + b') * sc (fc b') * (1 - at0 (vf_valueFraction phi) b'))%Qc vone)) /\
      (exists vs rs vc rc,
        computeDivImp SerialExecutor m p (sp_rowPtrs p) flux phi scaling [values; rhs] (Some [vs; rs]) /\
        computeDivImp e m p (sp_rowPtrs p) flux phi scaling [values; rhs] (Some [vc; rc]) /\
        sys_ok m p vc rc /\ sys_ok m p vs rs /\
        atV rs (fc b') = vsub (atV rc (fc b')) (vscale (at0 flux (nI + b') * sc (fc b'))%Qc (vscale (at0 (vf_valueFraction phi) b') (atV (vf_refValue phi) b')))).
    Proof using Hm Hp Hpl Hfl Hb Hsc HL HUL.
      intros He [Hlv Hlr] Hbb Hbb' Hne Efc. destruct Hb as (Hb1 & Hb2 & Hb3). pose proof (vt_faces m Hm) as Hnf.
      unfold computeDivImp. rewrite Hfl, Hnf.
      refine (face_race
        (fun f => vscale (sc (nei f)) (val f)) (fun f => vscale (sc (own f)) (val' f))
        (fun f => vscale (sc (own f)) (val f)) (fun f => vscale (sc (nei f)) (val' f))
        (fun b => vscale (at0 flux (nI + b) * sc (fc b) * (1 - at0 (vf_valueFraction phi) b))%Qc vone)
        (fun b => vscale (at0 flux (nI + b) * sc (fc b))%Qc (vscale (at0 (vf_valueFraction phi) b) (atV (vf_refValue phi) b)))
        (divImp_internal m p (sp_rowPtrs p) flux scaling) (divImp_boundary m p (sp_rowPtrs p) flux scaling phi)
        (fun b => SAdd (0, slot (Diag (fc b))) (vscale (at0 flux (nI + b) * sc (fc b) * (1 - at0 (vf_valueFraction phi) b))%Qc vone))
        _ _ _ _ e values rhs b b' He Hlv Hlr Hbb Hbb' Hne Efc); try done.
      - intros f Hf. unfold divImp_internal. pose proof (owner_lt m Hm f Hf). pose proof (nei_lt' m Hm f Hf).
        rewrite (lookup_at0 flux f), (owner_lookup m Hm f Hf), (nei_lookup m Hm f Hf) by lia. cbn [mbind option_bind].
        rewrite !(rp_lookup m p Hp), !(diag_lookup m p Hp), (ownoff_lookup m p Hp f Hf), (neioff_lookup m p Hp f Hf) by done.
        rewrite !(coeff_lookup scaling nC) by done. done.
      - intros b0 Hb0. unfold divImp_boundary. replace (nI + b0 - nI) with b0 by lia.
        pose proof (fc_lt' m Hm b0 Hb0).
        rewrite (lookup_at0 flux (nI + b0)), (fc_lookup m Hm b0 Hb0) by lia. cbn [mbind option_bind].
        rewrite (rp_lookup m p Hp), (diag_lookup m p Hp), (coeff_lookup scaling nC) by done. cbn [mbind option_bind].
        rewrite (lookup_at0 (vf_valueFraction phi) b0), (lookup_atV (vf_refValue phi) b0) by lia. done.
    Qed.
  End div.

  Section lap.
    Context (dc gamma : list Qc) (phi : volField V) (scaling : Coeff).
    Context (Hdc : length dc = nFaces m) (Hg : length gamma = nFaces m) (Hmag : length (magFaceAreas m) = nFaces m)
            (Hb : boundary_ok m phi) (Hsc : coeff_ok scaling nC).
    Notation sc := (coeff_val scaling).
    Let fl f : V := vscale (at0 dc f * at0 gamma f * at0 (magFaceAreas m) f)%Qc vone.

    Theorem lap_race_general e (values rhs : list V) b b' : e <> SerialExecutor -> sys_ok m p values rhs ->
      b < nB -> b' < nB -> b <> b' -> fc b = fc b' ->
      (exists vs rs vc rc,
        computeLaplacianImpl SerialExecutor m p (sp_rowPtrs p) dc gamma phi scaling [values; rhs] (Some [vs; rs]) /\
        computeLaplacianImpl e m p (sp_rowPtrs p) dc gamma phi scaling [values; rhs] (Some [vc; rc]) /\
        sys_ok m p vc rc /\ sys_ok m p vs rs /\
        atV vs (slot (Diag (fc b'))) = vadd (atV vc (slot (Diag (fc b'))))
          (vneg (vscale (at0 gamma (nI + b') * at0 (magFaceAreas m) (nI + b') * sc (fc b') *
                    at0 (vf_valueFraction phi) b' * at0 dc (nI + b'))%Qc vone))) /\
      (exists vs rs vc rc,
        computeLaplacianImpl SerialExecutor m p (sp_rowPtrs p) dc gamma phi scaling [values; rhs] (Some [vs; rs]) /\
        computeLaplacianImpl e m p (sp_rowPtrs p) dc gamma phi scaling [values; rhs] (Some [vc; rc]) /\
        sys_ok m p vc rc /\ sys_ok m p vs rs /\
        atV rs (fc b') = vsub (atV rc (fc b')) (vscale (at0 gamma (nI + b') * at0 (magFaceAreas m) (nI + b') * sc (fc b'))%Qc
                    (vadd (vscale (at0 (vf_valueFraction phi) b' * at0 dc (nI + b'))%Qc (atV (vf_refValue phi) b'))
                          (vscale (1 - at0 (vf_valueFraction phi) b')%Qc (atV (vf_refGrad phi) b'))))).
    Proof using Hm Hp Hpl Hdc Hg Hmag Hb Hsc HL HUL.
      intros He [Hlv Hlr] Hbb Hbb' Hne Efc. destruct Hb as (Hb1 & Hb2 & Hb3). pose proof (vt_faces m Hm) as Hnf.
      unfold computeLaplacianImpl. rewrite Hg, Hnf.
      refine (face_race
        (fun f => vscale (sc (nei f)) (fl f)) (fun f => vscale (sc (own f)) (fl f))
        (fun f => vscale (sc (own f)) (fl f)) (fun f => vscale (sc (nei f)) (fl f))
        (fun b => vneg (vscale (at0 gamma (nI + b) * at0 (magFaceAreas m) (nI + b) * sc (fc b) *
                    at0 (vf_valueFraction phi) b * at0 dc (nI + b))%Qc vone))
        (fun b => vscale (at0 gamma (nI + b) * at0 (magFaceAreas m) (nI + b) * sc (fc b))%Qc
                    (vadd (vscale (at0 (vf_valueFraction phi) b * at0 dc (nI + b))%Qc (atV (vf_refValue phi) b))
                          (vscale (1 - at0 (vf_valueFraction phi) b)%Qc (atV (vf_refGrad phi) b))))
        (lapImp_internal m p (sp_rowPtrs p) dc gamma scaling) (lapImp_boundary m p (sp_rowPtrs p) dc gamma scaling phi)
        (fun b => SSub (0, slot (Diag (fc b))) (vscale (at0 gamma (nI + b) * at0 (magFaceAreas m) (nI + b) * sc (fc b) *
                    at0 (vf_valueFraction phi) b * at0 dc (nI + b))%Qc vone))
        _ _ _ _ e values rhs b b' He Hlv Hlr Hbb Hbb' Hne Efc); try done.
      - intros f Hf. unfold lapImp_internal. pose proof (owner_lt m Hm f Hf). pose proof (nei_lt' m Hm f Hf).
        rewrite (lookup_at0 dc f), (lookup_at0 gamma f), (lookup_at0 (magFaceAreas m) f),
          (owner_lookup m Hm f Hf), (nei_lookup m Hm f Hf) by lia. cbn [mbind option_bind].
        rewrite !(rp_lookup m p Hp), !(diag_lookup m p Hp), (ownoff_lookup m p Hp f Hf), (neioff_lookup m p Hp f Hf) by done.
        rewrite !(coeff_lookup scaling nC) by done. done.
      - intros b0 Hb0. unfold lapImp_boundary. replace (nI + b0 - nI) with b0 by lia.
        pose proof (fc_lt' m Hm b0 Hb0).
        rewrite (lookup_at0 gamma (nI + b0)), (lookup_at0 (magFaceAreas m) (nI + b0)), (fc_lookup m Hm b0 Hb0) by lia.
        cbn [mbind option_bind].
        rewrite (rp_lookup m p Hp), (diag_lookup m p Hp), (coeff_lookup scaling nC) by done. cbn [mbind option_bind].
        rewrite (lookup_at0 (vf_valueFraction phi) b0), (lookup_at0 dc (nI + b0)), (lookup_atV (vf_refValue phi) b0),
          (lookup_atV (vf_refGrad phi) b0) by lia. done.
    Qed.
  End lap.
End race.
