(** C109: implicit assembly in any arithmetic. *)
From Coq Require Import Reals Lra Psatz.
From Verif Require Import Base Par ParProofs Exec ExecProofs Value Kernel KernelProofs KernelAnyArith KernelMixed Mesh MeshSpec MeshProofs Coeff FV FVSpec FVProofs FVAnyArith
  Sparsity SparsitySpec SparsityMain SparsityProps Assembly AssemblySpec AssemblyProofs AssemblyAnyArith ExampleMesh Properties_Sparsity Properties_Assembly Properties_AnyArith Properties_Float.

Section coeffs.
  Context {V : Type} `{ValueType V} `{ValueUnit V}.
  (** 1 if face [f] takes the owner's value (flux >= 0), 0 if the neighbour's. *)
  Definition from_owner (flux : list Qc) (f : nat) : Qc := if Qclt_le_dec (at0 flux f) 0 then 0%Qc else 1%Qc.
  (** Minus the part of the flux that carries the owner's value; the part that
      carries the neighbour's: as field values. *)
  Definition minus_owner_flux (flux : list Qc) (f : nat) : V := vscale (- from_owner flux f * at0 flux f)%Qc vone.
  Definition neighbour_flux (flux : list Qc) (f : nat) : V := vscale (at0 flux f * (1 - from_owner flux f))%Qc vone.
  (** What the divergence with scaling [s] adds. *)
  Definition div_system (e : executor) (m : mesh) (p : sparsity) (flux : list Qc) (phi : volField V) (s : nat -> Qc)
      (values rhs values' rhs' : list V) : Prop :=
    assembled e m p
      (fun f => vscale (s (atn (faceNeighbour m) f)) (minus_owner_flux flux f))                     (* lower *)
      (fun f => vscale (s (atn (faceOwner m) f)) (neighbour_flux flux f))                           (* upper *)
      (fun f => vneg (vscale (s (atn (faceOwner m) f)) (minus_owner_flux flux f)))                  (* diagonal of the owner *)
      (fun f => vneg (vscale (s (atn (faceNeighbour m) f)) (neighbour_flux flux f)))                (* diagonal of the neighbour *)
      (fun b => vscale (at0 flux (nInternalFaces m + b) * s (atn (bFaceCells (bmesh m)) b) * (1 - at0 (vf_valueFraction phi) b))%Qc vone)
      (fun b => vneg (vscale (at0 flux (nInternalFaces m + b) * s (atn (bFaceCells (bmesh m)) b))%Qc
                   (vscale (at0 (vf_valueFraction phi) b) (atV (vf_refValue phi) b))))
      values rhs values' rhs'.
  (** What the Laplacian adds. *)
  Definition face_conductance (m : mesh) (dc gamma : list Qc) (f : nat) : V :=
    vscale (at0 dc f * at0 gamma f * at0 (magFaceAreas m) f)%Qc vone.
  Definition laplacian_system (e : executor) (m : mesh) (p : sparsity) (dc gamma : list Qc) (phi : volField V) (s : nat -> Qc)
      (values rhs values' rhs' : list V) : Prop :=
    assembled e m p
      (fun f => vscale (s (atn (faceNeighbour m) f)) (face_conductance m dc gamma f))
      (fun f => vscale (s (atn (faceOwner m) f)) (face_conductance m dc gamma f))
      (fun f => vneg (vscale (s (atn (faceOwner m) f)) (face_conductance m dc gamma f)))
      (fun f => vneg (vscale (s (atn (faceNeighbour m) f)) (face_conductance m dc gamma f)))
      (fun b => vneg (vscale (at0 gamma (nInternalFaces m + b) * at0 (magFaceAreas m) (nInternalFaces m + b) * s (atn (bFaceCells (bmesh m)) b) *
                   at0 (vf_valueFraction phi) b * at0 dc (nInternalFaces m + b))%Qc vone))
      (fun b => vneg (vscale (at0 gamma (nInternalFaces m + b) * at0 (magFaceAreas m) (nInternalFaces m + b) * s (atn (bFaceCells (bmesh m)) b))%Qc
                   (vadd (vscale (at0 (vf_valueFraction phi) b * at0 dc (nInternalFaces m + b))%Qc (atV (vf_refValue phi) b))
                         (vscale (1 - at0 (vf_valueFraction phi) b)%Qc (atV (vf_refGrad phi) b)))))
      values rhs values' rhs'.

  Lemma div_kernel_internal m (Hm : valid_topology m) p (Hp : pattern_rows m p) flux scaling f :
    length flux = nFaces m -> coeff_ok scaling (nCells m) -> f < nInternalFaces m ->
    divImp_internal m p (sp_rowPtrs p) flux scaling f = Some (ibody m p
      (fun f => vscale (coeff_val scaling (atn (faceNeighbour m) f)) (minus_owner_flux flux f))
      (fun f => vscale (coeff_val scaling (atn (faceOwner m) f)) (neighbour_flux flux f))
      (fun f => vscale (coeff_val scaling (atn (faceOwner m) f)) (minus_owner_flux flux f))
      (fun f => vscale (coeff_val scaling (atn (faceNeighbour m) f)) (neighbour_flux flux f)) f).
  Proof.
    intros Hfl Hsc Hf. pose proof (vt_faces m Hm) as Hnf.
    unfold divImp_internal. pose proof (owner_lt m Hm f Hf). pose proof (nei_lt' m Hm f Hf).
    rewrite (lookup_at0 flux f), (FVProofs.owner_lookup m Hm f Hf), (FVProofs.nei_lookup m Hm f Hf) by lia. cbn [mbind option_bind].
    rewrite !(rp_lookup_any m p Hp), !(diag_lookup_any m p Hp), (ownoff_lookup_any m p Hp f Hf), (neioff_lookup_any m p Hp f Hf) by done.
    rewrite !(coeff_lookup scaling (nCells m)) by done. done.
  Qed.
  Definition div_diag_stmt m p flux (phi : volField V) scaling b : stmt V :=
    SAdd (0, loc_slot m p (Diag (atn (bFaceCells (bmesh m)) b)))
      (vscale (at0 flux (nInternalFaces m + b) * coeff_val scaling (atn (bFaceCells (bmesh m)) b) * (1 - at0 (vf_valueFraction phi) b))%Qc vone).
  Lemma div_kernel_boundary m (Hm : valid_topology m) p (Hp : pattern_rows m p) flux (phi : volField V) scaling b :
    length flux = nFaces m -> boundary_ok m phi -> coeff_ok scaling (nCells m) -> b < nBoundaryFaces m ->
    divImp_boundary m p (sp_rowPtrs p) flux scaling phi (nInternalFaces m + b) =
      Some [div_diag_stmt m p flux phi scaling b; SSub (1, atn (bFaceCells (bmesh m)) b)
        (vscale (at0 flux (nInternalFaces m + b) * coeff_val scaling (atn (bFaceCells (bmesh m)) b))%Qc
           (vscale (at0 (vf_valueFraction phi) b) (atV (vf_refValue phi) b)))].
  Proof.
    intros Hfl (Hb1 & Hb2 & Hb3) Hsc Hb. pose proof (vt_faces m Hm) as Hnf.
    unfold divImp_boundary. replace (nInternalFaces m + b - nInternalFaces m) with b by lia.
    pose proof (fc_lt' m Hm b Hb).
    rewrite (lookup_at0 flux (nInternalFaces m + b)), (FVProofs.fc_lookup m Hm b Hb) by lia. cbn [mbind option_bind].
    rewrite (rp_lookup_any m p Hp), (diag_lookup_any m p Hp), (coeff_lookup scaling (nCells m)) by done. cbn [mbind option_bind].
    rewrite (lookup_at0 (vf_valueFraction phi) b), (lookup_atV (vf_refValue phi) b) by lia. done.
  Qed.
  Lemma lap_kernel_internal m (Hm : valid_topology m) p (Hp : pattern_rows m p) dc gamma scaling f :
    length dc = nFaces m -> length gamma = nFaces m -> length (magFaceAreas m) = nFaces m -> coeff_ok scaling (nCells m) -> f < nInternalFaces m ->
    lapImp_internal m p (sp_rowPtrs p) dc gamma scaling f = Some (ibody m p
      (fun f => vscale (coeff_val scaling (atn (faceNeighbour m) f)) (face_conductance m dc gamma f))
      (fun f => vscale (coeff_val scaling (atn (faceOwner m) f)) (face_conductance m dc gamma f))
      (fun f => vscale (coeff_val scaling (atn (faceOwner m) f)) (face_conductance m dc gamma f))
      (fun f => vscale (coeff_val scaling (atn (faceNeighbour m) f)) (face_conductance m dc gamma f)) f).
  Proof.
    intros Hdc Hg Hmag Hsc Hf. pose proof (vt_faces m Hm) as Hnf.
    unfold lapImp_internal. pose proof (owner_lt m Hm f Hf). pose proof (nei_lt' m Hm f Hf).
    rewrite (lookup_at0 dc f), (lookup_at0 gamma f), (lookup_at0 (magFaceAreas m) f), (FVProofs.owner_lookup m Hm f Hf), (FVProofs.nei_lookup m Hm f Hf) by lia. cbn [mbind option_bind].
    rewrite !(rp_lookup_any m p Hp), !(diag_lookup_any m p Hp), (ownoff_lookup_any m p Hp f Hf), (neioff_lookup_any m p Hp f Hf) by done.
    rewrite !(coeff_lookup scaling (nCells m)) by done. done.
  Qed.
  Definition lap_diag_stmt m p dc gamma (phi : volField V) scaling b : stmt V :=
    SSub (0, loc_slot m p (Diag (atn (bFaceCells (bmesh m)) b)))
      (vscale (at0 gamma (nInternalFaces m + b) * at0 (magFaceAreas m) (nInternalFaces m + b) * coeff_val scaling (atn (bFaceCells (bmesh m)) b) *
                   at0 (vf_valueFraction phi) b * at0 dc (nInternalFaces m + b))%Qc vone).
  Lemma lap_kernel_boundary m (Hm : valid_topology m) p (Hp : pattern_rows m p) dc gamma (phi : volField V) scaling b :
    length dc = nFaces m -> length gamma = nFaces m -> length (magFaceAreas m) = nFaces m -> boundary_ok m phi -> coeff_ok scaling (nCells m) -> b < nBoundaryFaces m ->
    lapImp_boundary m p (sp_rowPtrs p) dc gamma scaling phi (nInternalFaces m + b) =
      Some [lap_diag_stmt m p dc gamma phi scaling b; SSub (1, atn (bFaceCells (bmesh m)) b)
        (vscale (at0 gamma (nInternalFaces m + b) * at0 (magFaceAreas m) (nInternalFaces m + b) * coeff_val scaling (atn (bFaceCells (bmesh m)) b))%Qc
                   (vadd (vscale (at0 (vf_valueFraction phi) b * at0 dc (nInternalFaces m + b))%Qc (atV (vf_refValue phi) b))
                         (vscale (1 - at0 (vf_valueFraction phi) b)%Qc (atV (vf_refGrad phi) b))))].
  Proof.
    intros Hdc Hg Hmag (Hb1 & Hb2 & Hb3) Hsc Hb. pose proof (vt_faces m Hm) as Hnf.
    unfold lapImp_boundary. replace (nInternalFaces m + b - nInternalFaces m) with b by lia.
    pose proof (fc_lt' m Hm b Hb).
    rewrite (lookup_at0 gamma (nInternalFaces m + b)), (lookup_at0 (magFaceAreas m) (nInternalFaces m + b)), (FVProofs.fc_lookup m Hm b Hb) by lia. cbn [mbind option_bind].
    rewrite (rp_lookup_any m p Hp), (diag_lookup_any m p Hp), (coeff_lookup scaling (nCells m)) by done. cbn [mbind option_bind].
    rewrite (lookup_at0 (vf_valueFraction phi) b), (lookup_at0 dc (nInternalFaces m + b)), (lookup_atV (vf_refValue phi) b), (lookup_atV (vf_refGrad phi) b) by lia. done.
  Qed.
End coeffs.

(** The divergence. *)
Theorem C109_divergence : forall {V} `{ValueType V} `{ValueUnit V} m p, valid_topology m -> pattern_rows m p -> pattern_located m p ->
  forall e flux (phi : volField V) scaling values rhs,
  length flux = nFaces m -> boundary_ok m phi -> coeff_ok scaling (nCells m) -> no_boundary_race e m -> sys_ok m p values rhs ->
  every_outcome (computeDivImp e m p (sp_rowPtrs p) flux phi scaling [values; rhs])
    (fun sys => exists values' rhs', sys = [values'; rhs'] /\ div_system e m p flux phi (coeff_val scaling) values rhs values' rhs').
Proof.
  intros V ? ? m p Hm Hp Hpl e flux phi scaling values rhs Hfl Hb Hsc Hrace Hsys.
  unfold computeDivImp. rewrite Hfl, (vt_faces m Hm). unfold div_system.
  eapply (faces_any_arith m Hm p Hpl); [| | |exact Hrace|exact Hsys].
  - intros f Hf. by apply div_kernel_internal.
  - intros b Hbb. by apply (div_kernel_boundary m Hm p Hp).
  - intros b Hbb. done.
Qed.
Print Assumptions C109_divergence.

(** The Laplacian. *)
Theorem C109_laplacian : forall {V} `{ValueType V} `{ValueUnit V} m p, valid_topology m -> pattern_rows m p -> pattern_located m p ->
  forall e dc gamma (phi : volField V) scaling values rhs,
  length dc = nFaces m -> length gamma = nFaces m -> length (magFaceAreas m) = nFaces m ->
  boundary_ok m phi -> coeff_ok scaling (nCells m) -> no_boundary_race e m -> sys_ok m p values rhs ->
  every_outcome (computeLaplacianImpl e m p (sp_rowPtrs p) dc gamma phi scaling [values; rhs])
    (fun sys => exists values' rhs', sys = [values'; rhs'] /\ laplacian_system e m p dc gamma phi (coeff_val scaling) values rhs values' rhs').
Proof.
  intros V ? ? m p Hm Hp Hpl e dc gamma phi scaling values rhs Hdc Hg Hmag Hb Hsc Hrace Hsys.
  unfold computeLaplacianImpl. rewrite Hg, (vt_faces m Hm). unfold laplacian_system.
  eapply (faces_any_arith m Hm p Hpl); [| | |exact Hrace|exact Hsys].
  - intros f Hf. by apply lap_kernel_internal.
  - intros b Hbb. by apply (lap_kernel_boundary m Hm p Hp).
  - intros b Hbb. done.
Qed.
Print Assumptions C109_laplacian.

(** On a parallel executor the diagonal of a cell can see its terms in every order. *)
Theorem C109_every_order : forall {V} `{ValueType V} `{ValueUnit V} m p, valid_topology m -> pattern_rows m p -> pattern_located m p ->
  forall e flux (phi : volField V) scaling values rhs c li lb,
  e <> SerialExecutor -> length flux = nFaces m -> boundary_ok m phi -> coeff_ok scaling (nCells m) -> sys_ok m p values rhs -> c < nCells m ->
  li ≡ₚ cell_terms m (fun f => vneg (vscale (coeff_val scaling (atn (faceOwner m) f)) (minus_owner_flux flux f)))
                     (fun f => vneg (vscale (coeff_val scaling (atn (faceNeighbour m) f)) (neighbour_flux flux f))) c ->
  lb ≡ₚ patch_terms m (fun b => vscale (at0 flux (nInternalFaces m + b) * coeff_val scaling (atn (bFaceCells (bmesh m)) b) * (1 - at0 (vf_valueFraction phi) b))%Qc vone) c ->
  exists values' rhs', computeDivImp e m p (sp_rowPtrs p) flux phi scaling [values; rhs] (Some [values'; rhs']) /\ sys_ok m p values' rhs' /\
    atV values' (loc_slot m p (Diag c)) = foldl vadd (foldl vadd (atV values (loc_slot m p (Diag c))) li) lb.
Proof.
  intros V ? ? m p Hm Hp Hpl e flux phi scaling values rhs c li lb He Hfl Hb Hsc Hsys Hc Hli Hlb.
  unfold computeDivImp. rewrite Hfl, (vt_faces m Hm).
  eapply (faces_every_order_asm m Hm p Hpl); [| | |exact He|exact Hsys|exact Hc|exact Hli|exact Hlb].
  - intros f Hf. by apply div_kernel_internal.
  - intros b Hbb. by apply (div_kernel_boundary m Hm p Hp).
  - intros b Hbb. done.
Qed.
Print Assumptions C109_every_order.

(** Two assembled systems agree on every off-diagonal coefficient; if no cell has
    two boundary faces also on the right-hand side and on the diagonals of the
    cells with at most one internal face. *)
Definition same_off_diagonal {V} `{ValueType V} (m : mesh) (p : sparsity) (v v' : list V) : Prop :=
  forall f, f < nInternalFaces m -> atV v (loc_slot m p (Lower f)) = atV v' (loc_slot m p (Lower f)) /\
                                    atV v (loc_slot m p (Upper f)) = atV v' (loc_slot m p (Upper f)).
Lemma once_patch_terms {V} m (g : nat -> V) c : boundary_once m -> length (patch_terms m g c) <= 1.
Proof.
  intros Ho. unfold patch_terms.
  assert (Hx : forall l, NoDup l -> (forall b, b ∈ l -> b < nBoundaryFaces m) ->
    length (concat (map (fun b => if decide (atn (bFaceCells (bmesh m)) b = c) then [g b] else []) l)) <= 1 /\
    ((exists b, b ∈ l /\ atn (bFaceCells (bmesh m)) b = c) \/ concat (map (fun b => if decide (atn (bFaceCells (bmesh m)) b = c) then [g b] else []) l) = [])).
  { induction l as [|b l IH]; intros Hnd Hl; [split; [simpl; lia|by right]|]. apply NoDup_cons in Hnd as [Hn Hnd].
    destruct IH as [IH1 IH2]; [done|intros; apply Hl; by right|]. cbn [map concat]. destruct (decide (atn (bFaceCells (bmesh m)) b = c)) as [E|E].
    - destruct IH2 as [(b' & Hb' & Eb')|E2]; [|rewrite E2; split; [simpl; lia|left; exists b; split; [by left|done]]].
      exfalso. apply Hn. rewrite (Ho b b'); [done|apply Hl; by left|apply Hl; by right|congruence].
    - split; [done|]. destruct IH2 as [(b' & Hb' & Eb')|E2]; [left; exists b'; split; [by right|done]|by right]. }
  apply Hx; [apply NoDup_seq|]. intros b Hb%elem_of_seq. lia.
Qed.
Lemma perm_short {A} (l k k' : list A) : length l <= 1 -> k ≡ₚ l -> k' ≡ₚ l -> k = k'.
Proof.
  intros Hl Hk Hk'. destruct l as [|a [|? ?]]; [| |simpl in Hl; lia].
  - apply Permutation_nil_r in Hk, Hk'. congruence.
  - apply Permutation_singleton_r in Hk, Hk'. congruence.
Qed.
Lemma values_eq {V} `{ValueType V} m p (Hpl : pattern_located m p) (v v' : list V) : length v = sp_nnz p -> length v' = sp_nnz p ->
  (forall l, loc_valid m l -> atV v (loc_slot m p l) = atV v' (loc_slot m p l)) -> v = v'.
Proof.
  intros Hl Hl' Hx. apply (list_eq_same_length _ _ (sp_nnz p)); [done|done|]. intros i x y Hi E E'.
  destruct (pl_onto _ _ Hpl i Hi) as (l & Hv & <-). specialize (Hx l Hv). unfold atV in Hx. by rewrite E, E' in Hx.
Qed.
Lemma assembled_agree {V} `{ValueType V} e e' m p lo up dO dN bd br (values rhs v r v' r' : list V) :
  assembled e m p lo up dO dN bd br values rhs v r -> assembled e' m p lo up dO dN bd br values rhs v' r' ->
  same_off_diagonal m p v v' /\
  (boundary_once m -> r = r' /\ forall c, c < nCells m -> length (cell_terms m dO dN c) <= 1 -> atV v (loc_slot m p (Diag c)) = atV v' (loc_slot m p (Diag c))).
Proof.
  intros A B. split.
  - intros f Hf. rewrite (asm_lower _ _ _ _ _ _ _ _ _ _ _ _ _ A f Hf), (asm_upper _ _ _ _ _ _ _ _ _ _ _ _ _ A f Hf).
    by rewrite (asm_lower _ _ _ _ _ _ _ _ _ _ _ _ _ B f Hf), (asm_upper _ _ _ _ _ _ _ _ _ _ _ _ _ B f Hf).
  - intros Ho. pose proof (asm_ok _ _ _ _ _ _ _ _ _ _ _ _ _ A) as [_ Hl]. pose proof (asm_ok _ _ _ _ _ _ _ _ _ _ _ _ _ B) as [_ Hl']. split.
    + apply (list_eq_same_length _ _ (nCells m)); [done|done|]. intros c x y Hc Hx Hy.
      destruct (asm_rhs _ _ _ _ _ _ _ _ _ _ _ _ _ A c Hc) as (l & Hp & _ & E). destruct (asm_rhs _ _ _ _ _ _ _ _ _ _ _ _ _ B c Hc) as (l' & Hp' & _ & E').
      unfold atV in E, E'. rewrite Hx in E. rewrite Hy in E'. simpl in E, E'. rewrite E, E'. f_equal.
      eapply perm_short; [by apply once_patch_terms|exact Hp|exact Hp'].
    + intros c Hc Hlen. destruct (asm_diag _ _ _ _ _ _ _ _ _ _ _ _ _ A c Hc) as (li & lb & Hi & Hb & _ & ->).
      destruct (asm_diag _ _ _ _ _ _ _ _ _ _ _ _ _ B c Hc) as (li' & lb' & Hi' & Hb' & _ & ->).
      rewrite (perm_short _ _ _ Hlen Hi Hi'), (perm_short _ _ _ (once_patch_terms m bd c Ho) Hb Hb'). done.
Qed.
Theorem C109_divergence_reproducible : forall {V} `{ValueType V} `{ValueUnit V} m p, valid_topology m -> pattern_rows m p -> pattern_located m p ->
  forall e e' flux (phi : volField V) scaling values rhs v r v' r',
  length flux = nFaces m -> boundary_ok m phi -> coeff_ok scaling (nCells m) -> no_boundary_race e m -> no_boundary_race e' m -> sys_ok m p values rhs ->
  computeDivImp e m p (sp_rowPtrs p) flux phi scaling [values; rhs] (Some [v; r]) ->
  computeDivImp e' m p (sp_rowPtrs p) flux phi scaling [values; rhs] (Some [v'; r']) ->
  same_off_diagonal m p v v' /\ (boundary_once m -> r = r') /\
  (e = SerialExecutor -> e' = SerialExecutor -> v = v').
Proof.
  intros V ? ? m p Hm Hp Hpl e e' flux phi scaling values rhs v r v' r' Hfl Hb Hsc Hra Hra' Hsys Hr Hr'.
  destruct (C109_divergence m p Hm Hp Hpl e flux phi scaling values rhs Hfl Hb Hsc Hra Hsys) as (_ & _ & Ha).
  destruct (C109_divergence m p Hm Hp Hpl e' flux phi scaling values rhs Hfl Hb Hsc Hra' Hsys) as (_ & _ & Ha').
  apply Ha in Hr as (? & ? & [= <- <-] & A). apply Ha' in Hr' as (? & ? & [= <- <-] & B).
  destruct (assembled_agree _ _ _ _ _ _ _ _ _ _ _ _ _ _ _ _ A B) as [H1 H2]. split; [done|]. split; [intros Ho; by apply H2|].
  intros -> ->. apply (values_eq m p Hpl); [apply (asm_ok _ _ _ _ _ _ _ _ _ _ _ _ _ A)|apply (asm_ok _ _ _ _ _ _ _ _ _ _ _ _ _ B)|].
  intros l Hl. destruct l as [c|f|f].
  - destruct (asm_diag _ _ _ _ _ _ _ _ _ _ _ _ _ A c Hl) as (li & lb & _ & _ & S & ->).
    destruct (asm_diag _ _ _ _ _ _ _ _ _ _ _ _ _ B c Hl) as (li' & lb' & _ & _ & S' & ->).
    destruct (S eq_refl) as [-> ->]. by destruct (S' eq_refl) as [-> ->].
  - apply (H1 f Hl).
  - apply (H1 f Hl).
Qed.
Print Assumptions C109_divergence_reproducible.
Theorem C109_laplacian_reproducible : forall {V} `{ValueType V} `{ValueUnit V} m p, valid_topology m -> pattern_rows m p -> pattern_located m p ->
  forall e e' dc gamma (phi : volField V) scaling values rhs v r v' r',
  length dc = nFaces m -> length gamma = nFaces m -> length (magFaceAreas m) = nFaces m ->
  boundary_ok m phi -> coeff_ok scaling (nCells m) -> no_boundary_race e m -> no_boundary_race e' m -> sys_ok m p values rhs ->
  computeLaplacianImpl e m p (sp_rowPtrs p) dc gamma phi scaling [values; rhs] (Some [v; r]) ->
  computeLaplacianImpl e' m p (sp_rowPtrs p) dc gamma phi scaling [values; rhs] (Some [v'; r']) ->
  same_off_diagonal m p v v' /\ (boundary_once m -> r = r') /\
  (e = SerialExecutor -> e' = SerialExecutor -> v = v').
Proof.
  intros V ? ? m p Hm Hp Hpl e e' dc gamma phi scaling values rhs v r v' r' Hdc Hg Hmag Hb Hsc Hra Hra' Hsys Hr Hr'.
  destruct (C109_laplacian m p Hm Hp Hpl e dc gamma phi scaling values rhs Hdc Hg Hmag Hb Hsc Hra Hsys) as (_ & _ & Ha).
  destruct (C109_laplacian m p Hm Hp Hpl e' dc gamma phi scaling values rhs Hdc Hg Hmag Hb Hsc Hra' Hsys) as (_ & _ & Ha').
  apply Ha in Hr as (? & ? & [= <- <-] & A). apply Ha' in Hr' as (? & ? & [= <- <-] & B).
  destruct (assembled_agree _ _ _ _ _ _ _ _ _ _ _ _ _ _ _ _ A B) as [H1 H2]. split; [done|]. split; [intros Ho; by apply H2|].
  intros -> ->. apply (values_eq m p Hpl); [apply (asm_ok _ _ _ _ _ _ _ _ _ _ _ _ _ A)|apply (asm_ok _ _ _ _ _ _ _ _ _ _ _ _ _ B)|].
  intros l Hl. destruct l as [c|f|f].
  - destruct (asm_diag _ _ _ _ _ _ _ _ _ _ _ _ _ A c Hl) as (li & lb & _ & _ & S & ->).
    destruct (asm_diag _ _ _ _ _ _ _ _ _ _ _ _ _ B c Hl) as (li' & lb' & _ & _ & S' & ->).
    destruct (S eq_refl) as [-> ->]. by destruct (S' eq_refl) as [-> ->].
  - apply (H1 f Hl).
  - apply (H1 f Hl).
Qed.
Print Assumptions C109_laplacian_reproducible.

(** The cell-wise operators: one result, the same on every executor. *)
Theorem C109_source : forall {V} `{ValueType V} `{ValueUnit V} m p, valid_topology m -> pattern_rows m p -> pattern_located m p ->
  forall scaling (coeff : list Qc) (values rhs : list V), coeff_ok scaling (nCells m) -> length coeff = nCells m -> sys_ok m p values rhs ->
  exists values' rhs', (forall e, always (source_implicit e m p (sp_rowPtrs p) scaling coeff [values; rhs]) [values'; rhs']) /\
    sys_ok m p values' rhs' /\ (forall c, c < nCells m -> atV rhs' c = atV rhs c) /\ same_off_diagonal m p values' values /\
    forall c, c < nCells m -> atV values' (loc_slot m p (Diag c)) =
      vadd (atV values (loc_slot m p (Diag c))) (vscale (coeff_val scaling c * at0 coeff c * at0 (cellVolumes m) c)%Qc vone).
Proof.
  intros V ? ? m p Hm Hp Hpl scaling coeff values rhs Hsc Hlc Hs.
  assert (Hx : forall e, exists values' rhs', (forall r, source_implicit e m p (sp_rowPtrs p) scaling coeff [values; rhs] r <-> r = Some [values'; rhs']) /\ sys_ok m p values' rhs' /\
        (forall l, loc_valid m l -> atV values' (loc_slot m p l) =
           match l with Diag c => vadd (atV values (loc_slot m p (Diag c))) (vscale (coeff_val scaling c * at0 coeff c * at0 (cellVolumes m) c)%Qc vone) | _ => atV values (loc_slot m p l) end) /\
        (forall c, c < nCells m -> atV rhs' c = atV rhs c)).
  { intros e. unfold source_implicit. rewrite Hlc. refine (cells_any_arith m p Hpl _ _ (fun _ => vzero) false _ e values rhs Hs).
    intros c Hc. cbv beta. rewrite (rp_lookup_any m p Hp), (diag_lookup_any m p Hp), (coeff_lookup scaling (nCells m)), (lookup_at0 coeff), (vol_lookup m Hm) by (done || lia). done. }
  destruct (Hx SerialExecutor) as (v & r & Hr & Hok & Hv & Hrr). exists v, r. split.
  - intros e. destruct (Hx e) as (v' & r' & Hr' & _).
    assert (Some [v; r] = Some [v'; r']) as [= -> ->]; [|exact Hr'].
    apply Hr'. pose proof (proj2 (Hr _) eq_refl) as Hser. unfold source_implicit in Hser |- *.
    destruct e; [done|..]; (eapply serial_par; exact Hser).
  - split; [done|]. split; [done|]. split; [intros f Hf; split; [apply (Hv (Lower f) Hf)|apply (Hv (Upper f) Hf)]|]. intros c Hc. apply (Hv (Diag c) Hc).
Qed.
Print Assumptions C109_source.
Theorem C109_ddt : forall {V} `{ValueType V} `{ValueUnit V} m p, valid_topology m -> pattern_rows m p -> pattern_located m p ->
  forall scaling dt (old values rhs : list V), coeff_ok scaling (nCells m) -> length old = nCells m -> sys_ok m p values rhs ->
  exists values' rhs', (forall e, always (ddt_implicit e m p (sp_rowPtrs p) scaling dt old [values; rhs]) [values'; rhs']) /\
    sys_ok m p values' rhs' /\ same_off_diagonal m p values' values /\
    (forall c, c < nCells m -> atV values' (loc_slot m p (Diag c)) =
      vadd (atV values (loc_slot m p (Diag c))) (vscale (coeff_val scaling c * at0 (cellVolumes m) c * (1 / dt))%Qc vone)) /\
    forall c, c < nCells m -> atV rhs' c = vadd (atV rhs c) (vscale (coeff_val scaling c * at0 (cellVolumes m) c * (1 / dt))%Qc (atV old c)).
Proof.
  intros V ? ? m p Hm Hp Hpl scaling dt old values rhs Hsc Hlo Hs.
  assert (Hx : forall e, exists values' rhs', (forall r, ddt_implicit e m p (sp_rowPtrs p) scaling dt old [values; rhs] r <-> r = Some [values'; rhs']) /\ sys_ok m p values' rhs' /\
        (forall l, loc_valid m l -> atV values' (loc_slot m p l) =
           match l with Diag c => vadd (atV values (loc_slot m p (Diag c))) (vscale (coeff_val scaling c * at0 (cellVolumes m) c * (1 / dt))%Qc vone) | _ => atV values (loc_slot m p l) end) /\
        (forall c, c < nCells m -> atV rhs' c = vadd (atV rhs c) (vscale (coeff_val scaling c * at0 (cellVolumes m) c * (1 / dt))%Qc (atV old c)))).
  { intros e. unfold ddt_implicit. rewrite Hlo.
    refine (cells_any_arith m p Hpl _ _ (fun c => vscale (coeff_val scaling c * at0 (cellVolumes m) c * (1 / dt))%Qc (atV old c)) true _ e values rhs Hs).
    intros c Hc. cbv beta. rewrite (rp_lookup_any m p Hp), (diag_lookup_any m p Hp), (coeff_lookup scaling (nCells m)), (vol_lookup m Hm) by (done || lia).
    cbn [mbind option_bind]. rewrite (lookup_atV old) by lia. done. }
  destruct (Hx SerialExecutor) as (v & r & Hr & Hok & Hv & Hrr). exists v, r. split.
  - intros e. destruct (Hx e) as (v' & r' & Hr' & _).
    assert (Some [v; r] = Some [v'; r']) as [= -> ->]; [|exact Hr'].
    apply Hr'. pose proof (proj2 (Hr _) eq_refl) as Hser. unfold ddt_implicit in Hser |- *.
    destruct e; [done|..]; (eapply serial_par; exact Hser).
  - split; [done|]. split; [intros f Hf; split; [apply (Hv (Lower f) Hf)|apply (Hv (Upper f) Hf)]|]. split; [|done]. intros c Hc. apply (Hv (Diag c) Hc).
Qed.
Print Assumptions C109_ddt.

(** ** In floating point *)
Local Open Scope R_scope.
Definition scalar_unit (p : precision) : ValueUnit R := {| vone := 1; vmul := fun a b => rnd p (a * b) |}.

(** The diagonals of the system: the exact sum of the terms, up to rounding. *)
Definition diagonals_within (pr : precision) (m : mesh) (p : sparsity) (dO dN bd : nat -> R) (values values' : list R) : Prop :=
  forall c, (c < nCells m)%nat ->
    let x := default 0 (values !! loc_slot m p (Diag c)) in
    let ts := cell_terms m dO dN c ++ patch_terms m bd c in
    Rabs (default 0 (values' !! loc_slot m p (Diag c)) - (x + sumR ts)) <= ((1 + u pr) ^ length ts - 1) * (Rabs x + sumabs ts).
Lemma cell_terms_format pr m dO dN c : (forall f, scalar_format pr (dO f)) -> (forall f, scalar_format pr (dN f)) -> Forall (scalar_format pr) (cell_terms m dO dN c).
Proof.
  intros HO HN. unfold cell_terms. apply Forall_concat, Forall_forall. intros l Hl. apply elem_of_list_fmap in Hl as (f & -> & _).
  apply Forall_app. split; case_decide; repeat constructor; auto.
Qed.
Lemma patch_terms_format pr m bd c : (forall f, scalar_format pr (bd f)) -> Forall (scalar_format pr) (patch_terms m bd c).
Proof.
  intros HO. unfold patch_terms. apply Forall_concat, Forall_forall. intros l Hl. apply elem_of_list_fmap in Hl as (f & -> & _).
  case_decide; repeat constructor; auto.
Qed.
Lemma assembled_within pr e m p (Hpl : pattern_located m p) lo up dO dN bd br (values rhs v r : list R) :
  (forall f, scalar_format pr (dO f)) -> (forall f, scalar_format pr (dN f)) -> (forall f, scalar_format pr (bd f)) ->
  Forall (scalar_format pr) values -> length values = sp_nnz p ->
  @assembled R (scalar_value pr) e m p lo up dO dN bd br values rhs v r -> diagonals_within pr m p dO dN bd values v.
Proof.
  intros FO FN FB FV Hlv A c Hc. cbv zeta.
  destruct (@asm_diag R (scalar_value pr) _ _ _ _ _ _ _ _ _ _ _ _ _ A c Hc) as (li & lb & Hi & Hb & _ & E).
  unfold atV in E. change (@vzero R (scalar_value pr)) with 0 in E. rewrite E. rewrite <- foldl_app.
  set (x := default 0 (values !! loc_slot m p (Diag c))) in *.
  assert (Fx : scalar_format pr x).
  { pose proof (slot_lt m p Hpl (Diag c) Hc) as Hs. destruct (lookup_lt_is_Some_2 values (loc_slot m p (Diag c))) as [y Ey]; [lia|].
    unfold x. rewrite Ey. by apply (Forall_lookup_1 _ _ _ _ FV Ey). }
  assert (Hp : li ++ lb ≡ₚ cell_terms m dO dN c ++ patch_terms m bd c) by (by rewrite Hi, Hb).
  rewrite <- (sumR_perm _ _ Hp), <- (sumabs_perm _ _ Hp), <- (Permutation_length Hp).
  apply foldl_error; [done|]. rewrite Hp. apply Forall_app. split; [by apply cell_terms_format|by apply patch_terms_format].
Qed.
Theorem C109_diagonal_error : forall pr m p, valid_topology m -> pattern_rows m p -> pattern_located m p ->
  forall e flux (phi : volField R) scaling values rhs,
  length flux = nFaces m -> boundary_ok m phi -> coeff_ok scaling (nCells m) -> no_boundary_race e m -> sys_ok m p values rhs ->
  Forall (scalar_format pr) values ->
  every_outcome (@computeDivImp R (scalar_value pr) (scalar_unit pr) e m p (sp_rowPtrs p) flux phi scaling [values; rhs])
    (fun sys => exists values' rhs', sys = [values'; rhs'] /\ sys_ok m p values' rhs' /\
      diagonals_within pr m p
        (fun f => - rnd pr (rnd pr (QcR (coeff_val scaling (atn (faceOwner m) f))) * rnd pr (rnd pr (QcR (- from_owner flux f * at0 flux f)) * 1)))
        (fun f => - rnd pr (rnd pr (QcR (coeff_val scaling (atn (faceNeighbour m) f))) * rnd pr (rnd pr (QcR (at0 flux f * (1 - from_owner flux f))) * 1)))
        (fun b => rnd pr (rnd pr (QcR (at0 flux (nInternalFaces m + b) * coeff_val scaling (atn (bFaceCells (bmesh m)) b) * (1 - at0 (vf_valueFraction phi) b))) * 1))
        values values').
Proof.
  intros pr m p Hm Hp Hpl e flux phi scaling values rhs Hfl Hb Hsc Hra Hsys Hf.
  eapply every_outcome_impl; [by apply (@C109_divergence R (scalar_value pr) (scalar_unit pr) m p Hm Hp Hpl)|].
  intros sys (v & r & -> & A). exists v, r. split; [done|]. split; [apply (@asm_ok R (scalar_value pr) _ _ _ _ _ _ _ _ _ _ _ _ _ A)|].
  refine (assembled_within pr e m p Hpl _ _ _ _ _ _ values rhs v r _ _ _ Hf (proj1 Hsys) A).
  - intros f. apply format_opp, format_rnd.
  - intros f. apply format_opp, format_rnd.
  - intros f. apply format_rnd.
Qed.
Print Assumptions C109_diagonal_error.

(** On a one-dimensional mesh of two cells or more, from a system of zeros, every
    executor computes the same bits. *)
Lemma once_1d n m : (2 <= n)%nat -> nBoundaryFaces m = 2%nat -> bFaceCells (bmesh m) = [0; n - 1]%nat -> boundary_once m.
Proof.
  intros Hn HB Hfc b b' Hb Hb'. rewrite HB in Hb, Hb'. rewrite Hfc. unfold atn.
  destruct b as [|[|b]], b' as [|[|b']]; try lia; simpl; unfold Datatypes.id; lia.
Qed.
Lemma cell_terms_length {V} m (Hm : valid_topology m) (gO gN : nat -> V) c :
  length (cell_terms m gO gN c) = length (filter (fun f => atn (faceOwner m) f = c \/ atn (faceNeighbour m) f = c) (seq 0 (nInternalFaces m))).
Proof.
  unfold cell_terms.
  assert (Hx : forall l, (forall f, f ∈ l -> (f < nInternalFaces m)%nat) -> length (concat (map (fun f => (if decide (atn (faceOwner m) f = c) then [gO f] else []) ++
                          (if decide (atn (faceNeighbour m) f = c) then [gN f] else [])) l)) = length (filter (fun f => atn (faceOwner m) f = c \/ atn (faceNeighbour m) f = c) l)).
  { induction l as [|f l IH]; intros Hl; [done|]. rewrite filter_cons. cbn [map concat]. rewrite app_length, IH by (intros; apply Hl; by right).
    pose proof (vt_owner _ Hm f (Hl f ltac:(by left))).
    destruct (decide (atn (faceOwner m) f = c)), (decide (atn (faceNeighbour m) f = c)); try lia.
    - rewrite decide_True by auto. done.
    - rewrite decide_True by auto. done.
    - rewrite decide_False by (intros [?|?]; done). done. }
  apply Hx. intros f Hf%elem_of_seq. lia.
Qed.
Lemma assembled_two pr e e' m p (Hpl : pattern_located m p) lo up dO dN bd br (v r v' r' : list R) :
  (forall f, scalar_format pr (dO f)) -> (forall f, scalar_format pr (dN f)) ->
  boundary_once m -> (forall c, (c < nCells m)%nat -> (length (cell_terms m dO dN c) <= 2)%nat) ->
  @assembled R (scalar_value pr) e m p lo up dO dN bd br (replicate (sp_nnz p) 0) (replicate (nCells m) 0) v r ->
  @assembled R (scalar_value pr) e' m p lo up dO dN bd br (replicate (sp_nnz p) 0) (replicate (nCells m) 0) v' r' -> v = v' /\ r = r'.
Proof.
  intros FO FN Ho H2 A B.
  destruct (@assembled_agree R (scalar_value pr) _ _ _ _ _ _ _ _ _ _ _ _ _ _ _ _ A B) as [H1 H3]. split; [|by apply H3].
  pose proof (@asm_ok R (scalar_value pr) _ _ _ _ _ _ _ _ _ _ _ _ _ A) as [Hl _]. pose proof (@asm_ok R (scalar_value pr) _ _ _ _ _ _ _ _ _ _ _ _ _ B) as [Hl' _].
  apply (@values_eq R (scalar_value pr) m p Hpl v v' Hl Hl').
  intros l Hv. destruct l as [c|f|f]; [|apply (H1 f Hv)|apply (H1 f Hv)].
  destruct (@asm_diag R (scalar_value pr) _ _ _ _ _ _ _ _ _ _ _ _ _ A c Hv) as (li & lb & Hi & Hb & _ & ->).
  destruct (@asm_diag R (scalar_value pr) _ _ _ _ _ _ _ _ _ _ _ _ _ B c Hv) as (li' & lb' & Hi' & Hb' & _ & ->).
  rewrite (perm_short _ _ _ (once_patch_terms m bd c Ho) Hb Hb'). f_equal.
  assert (E0 : @atV R (scalar_value pr) (replicate (sp_nnz p) 0) (loc_slot m p (Diag c)) = 0).
  { unfold atV. rewrite lookup_replicate_2; [done|]. apply (slot_lt m p Hpl (Diag c) Hv). }
  rewrite E0. specialize (H2 c Hv). pose proof (cell_terms_format pr m dO dN c FO FN) as F.
  destruct (cell_terms m dO dN c) as [|a [|b [|? ?]]]; [| | |simpl in H2; lia].
  - apply Permutation_nil_r in Hi, Hi'. by subst.
  - apply Permutation_singleton_r in Hi, Hi'. by subst.
  - apply Forall_cons in F as [Fa F]. apply Forall_cons in F as [Fb _].
    assert (E : rnd pr (rnd pr (0 + a) + b) = rnd pr (rnd pr (0 + b) + a)).
    { rewrite !Rplus_0_l, (rnd_format pr a Fa), (rnd_format pr b Fb). by rewrite Rplus_comm. }
    symmetry in Hi, Hi'. apply Permutation_length_2_inv in Hi, Hi'. destruct Hi as [->| ->], Hi' as [->| ->]; cbn [foldl vadd scalar_value]; congruence.
Qed.
Theorem C109_one_dimension_bitwise : forall pr em n ownJunk neiJunk m p,
  (2 <= n)%nat -> length ownJunk = (n + 1)%nat -> length neiJunk = (n - 1)%nat ->
  create1DUniformMesh em n ownJunk neiJunk (Some m) -> pattern_rows m p -> pattern_located m p ->
  forall e e' flux (phi : volField R) scaling r r',
  length flux = nFaces m -> boundary_ok m phi -> coeff_ok scaling (nCells m) ->
  @computeDivImp R (scalar_value pr) (scalar_unit pr) e m p (sp_rowPtrs p) flux phi scaling [replicate (sp_nnz p) 0; replicate (nCells m) 0] r ->
  @computeDivImp R (scalar_value pr) (scalar_unit pr) e' m p (sp_rowPtrs p) flux phi scaling [replicate (sp_nnz p) 0; replicate (nCells m) 0] r' -> r = r'.
Proof.
  intros pr em n oj nj m p Hn Ho Hnj Hcr Hp Hpl e e' flux phi scaling r r' Hfl Hb Hsc Hr Hr'.
  destruct (create1D_spec em n oj nj _ ltac:(lia) Ho Hnj Hcr) as (m' & [= <-] & HC & HI & HB & _ & Ht & _ & _ & _ & _ & _ & _ & _ & Hown & Hfc & _).
  assert (Honce : boundary_once m) by (eapply (once_1d n); done).
  assert (Hsys : sys_ok m p (replicate (sp_nnz p) 0) (replicate (nCells m) 0)) by (split; apply replicate_length).
  destruct (@C109_divergence R (scalar_value pr) (scalar_unit pr) m p Ht Hp Hpl e flux phi scaling _ _ Hfl Hb Hsc (or_intror Honce) Hsys) as (N & _ & A).
  destruct (@C109_divergence R (scalar_value pr) (scalar_unit pr) m p Ht Hp Hpl e' flux phi scaling _ _ Hfl Hb Hsc (or_intror Honce) Hsys) as (N' & _ & A').
  destruct r as [sys|]; [|done]. destruct r' as [sys'|]; [|done].
  apply A in Hr as (v & rr & -> & Ha). apply A' in Hr' as (v' & rr' & -> & Ha').
  unfold div_system in Ha, Ha'.
  match type of Ha with @assembled _ _ _ _ _ ?lo ?up ?dO ?dN ?bd ?br _ _ _ _ => assert (Hx : v = v' /\ rr = rr'); [apply (assembled_two pr e e' m p Hpl lo up dO dN bd br v rr v' rr')|] end.
  - intros f. apply format_opp, format_rnd.
  - intros f. apply format_opp, format_rnd.
  - exact Honce.
  - intros c Hc. rewrite (cell_terms_length m Ht).
    assert (H2 : (faces_of_cell m c <= 2)%nat).
    { apply (faces_1d n); try assumption; [lia| |lia]. intros f Hf. destruct (Hown f Hf) as (E1 & E2 & _). unfold atn. by rewrite E1, E2. }
    unfold faces_of_cell in H2. lia.
  - exact Ha.
  - exact Ha'.
  - destruct Hx as [-> ->]. reflexivity.
Qed.
Print Assumptions C109_one_dimension_bitwise.
Close Scope R_scope.

(** The hypotheses are met: the row of two cells, with a flux against the face
    normal; the run ends, and its off-diagonals are the fluxes. *)
Example C109_instance : exists p, sp_create CPUExecutor row2 (Ok p) /\ valid_topology row2 /\ pattern_rows row2 p /\ pattern_located row2 p /\
  boundary_once row2 /\
  let phi := VolField [0; 0]%Qc [1; 1]%Qc [1; 1]%Qc [1; 0]%Qc [0; 0]%Qc in let fl := [- (1); 1; - (1)]%Qc in
  length fl = nFaces row2 /\ boundary_ok row2 phi /\ coeff_ok coeff_default (nCells row2) /\
  exists v r, computeDivImp GPUExecutor row2 p (sp_rowPtrs p) fl phi coeff_default [replicate (sp_nnz p) 0%Qc; replicate 2 0%Qc] (Some [v; r]) /\
    atV v (loc_slot row2 p (Upper 0)) = (- (1))%Qc /\ atV v (loc_slot row2 p (Lower 0)) = 0%Qc.
Proof.
  assert (Ho : boundary_once row2).
  { intros [|[|b]] [|[|b']] Hb Hb' E; simpl in Hb, Hb'; try lia; vm_compute in E; lia. }
  assert (Hf : rows_fit row2). { intros [|[|c]] Hc; simpl in Hc; try lia; vm_compute; lia. }
  destruct (C29_pattern row2 CPUExecutor (valid_connectivity _ row2_topology) Hf) as [[p Hc] Hr].
  destruct (Hr _ Hc) as (p' & E & Hp & Hpl). injection E as <-. exists p.
  split; [done|]. split; [apply row2_topology|]. split; [done|]. split; [done|]. split; [done|]. cbv zeta.
  assert (Hb : boundary_ok row2 (VolField [0; 0]%Qc [1; 1]%Qc [1; 1]%Qc [1; 0]%Qc [0; 0]%Qc)) by done.
  split; [done|]. split; [done|]. split; [done|].
  assert (Hs : sys_ok row2 p (replicate (sp_nnz p) 0%Qc) (replicate 2 0%Qc)) by (split; apply replicate_length).
  destruct (C109_divergence (V := Qc) row2 p row2_topology Hp Hpl GPUExecutor [- (1); 1; - (1)]%Qc _ coeff_default _ _ eq_refl Hb ltac:(done) (or_intror Ho) Hs)
    as (_ & (sys & Hrun) & Ha).
  pose proof (Ha _ Hrun) as (v & r & -> & A). exists v, r. split; [exact Hrun|].
  assert (Hz : forall l, loc_valid row2 l -> atV (replicate (sp_nnz p) 0%Qc) (loc_slot row2 p l) = 0%Qc).
  { intros l Hl. unfold atV. rewrite lookup_replicate_2; [done|]. by apply (slot_lt row2 p Hpl). }
  rewrite (asm_upper _ _ _ _ _ _ _ _ _ _ _ _ _ A 0), (asm_lower _ _ _ _ _ _ _ _ _ _ _ _ _ A 0) by (vm_compute; lia).
  rewrite !Hz by (vm_compute; lia). split; apply Qc_is_canon; vm_compute; reflexivity.
Qed.
