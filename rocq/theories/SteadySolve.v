(** solve() for an equation without time derivative (dsl/solver.hpp:61-86). *)
From Verif Require Import Base Dict Registry Par Exec Fields FieldsProofs Value Kernel Mesh MeshSpec Coeff FV FVSpec Sparsity SparsitySpec SparsityDet Assembly AssemblySpec AssemblyProps
  Boundary Properties_Boundary ExampleMesh Properties_Sparsity Properties_Assembly Dsl DslSpec DslHeapProofs DslProofs DslAssembly Properties_Dsl Properties_DslAssembly
  TimeInt TimeSpec TimeIntProofs TimeIntSteps Properties_TimeInt.
Local Open Scope nat_scope.

(** The equation at cell c, integrated over the cell: [x] in the implicit
    operators, the fields of [st] in the explicit ones. *)
Definition steady_at (cx : ctx Qc) (n : nat) (sel : spatialKind Qc -> spatialKind Qc) (h : heap Qc) (eqn : equation) (st : tstate) (x : list Qc) (c : nat) : Qc :=
  equation_value
    (object_value h (fun k => at0 (cellVolumes (cx_mesh cx)) c * explicit_kind (at_state cx n st) (sel k) c)%Qc
                    (fun k => implicit_kind (at_state cx n st) (sel k) x c) c)
    (fun _ => 0%Qc) c eqn.
(** The field after the call satisfies the equation; nothing else changed. *)
Definition solves_steady cx n sel h eqn (st st' : tstate) : Prop :=
  length (vf_int (ts_phi st')) = nCells (cx_mesh cx) /\
  (forall c, c < nCells (cx_mesh cx) -> steady_at cx n sel h eqn st (vf_int (ts_phi st')) c = 0%Qc) /\
  ts_old st' = ts_old st /\
  ts_phi st' = with_int (ts_phi st) (vf_int (ts_phi st')).

Section steady.
  Context (cx : ctx Qc) (n : nat) (Hcx : cx_fits cx).
  Notation m := (cx_mesh cx).

  Lemma steady_system sel h0 eqn st h2 e ts ss :
    state_ok cx st -> all_supported cx n sel h0 eqn st ->
    isE h2 e (ts, map (selected sel) ss) -> meansE (nCells m) h0 eqn (ts, ss) ->
    exists values rhs, sys_ok m (cx_pattern cx) values rhs /\
      surely (solve_system (at_state cx n st) h2 e (cx_pattern cx)) [values; rhs] /\
      forall x c, c < nCells m -> residual (cx_pattern cx) values rhs x c = steady_at cx n sel h0 eqn st x c.
  Proof.
    intros Hst Hsup HE HM. pose proof Hcx as (Hm & Hp & _).
    pose proof (equation_contributes cx n sel h0 eqn st h2 e ts ss Hcx Hsup HE HM) as B2.
    pose proof (equation_adds cx n sel h0 eqn st h2 e ts ss Hcx (all_explicit cx n _ _ _ _ Hsup) HE HM) as B1.
    set (g := explicit_part cx n sel h0 eqn st) in *.
    assert (L0 : length (replicate (nCells m) (0%Qc)) = nCells m) by apply replicate_length.
    pose proof (B1 _ L0) as R1. set (s1 := map _ _) in R1.
    assert (Ls1 : length s1 = nCells m) by (unfold s1; by rewrite map_length, seq_length).
    assert (Vs1 : forall c, c < nCells m -> atV s1 c = g c).
    { intros c Hc. unfold s1. change (@atV Qc Qc_value) with at0. rewrite (at0_map_seq _ _ _ Hc).
      assert (at0 (replicate (nCells m) 0%Qc) c = 0%Qc) as Z.
      { unfold at0. rewrite lookup_replicate_2 by done. done. }
      change (@vadd Qc Qc_value) with Qcplus. rewrite Z. apply Qcplus_0_l. }
    destruct (B2 (replicate (sp_nnz (cx_pattern cx)) 0%Qc) (replicate (nCells m) 0%Qc)) as (v1 & r1 & A1 & A2 & A3).
    { split; apply replicate_length. }
    destruct (subtract_source_contributes (V := Qc) (cx_exec cx) m (cx_pattern cx) s1 Hm Ls1 v1 r1 A2) as (v2 & r2 & C1 & C2 & C3).
    exists v2, r2. split; [done|]. split.
    - unfold solve_system. pose proof (pr_rows m _ Hp) as Er. unfold sp_rows in Er. rewrite Er.
      eapply surely_rseq; [exact A1|]. eapply surely_rseq; [exact R1|]. exact C1.
    - intros x c Hc. rewrite C3, A3 by done. destruct (residual_zero m (cx_pattern cx) x c (sp_nnz (cx_pattern cx)) (nCells m)) as [Z _].
      rewrite Vs1 by done. unfold g, explicit_part, steady_at.
      etransitivity; [apply f_equal2; [apply f_equal2; [exact Z|reflexivity]|reflexivity]|].
      change (@vadd Qc Qc_value) with Qcplus. change (@vscale Qc Qc_value) with Qcmult. rewrite Qcplus_0_l.
      match goal with |- (?a + ?k * equation_value ?v ?w _ _)%Qc = _ =>
        pose proof (equation_value_scale (V := Qc) v w k c eqn) as S1 end.
      change (@vscale Qc Qc_value) with Qcmult in S1. rewrite <- S1. clear S1.
      etransitivity; [symmetry; exact (equation_value_add (V := Qc) _ _ _ _ c eqn)|].
      change (@vadd Qc Qc_value) with Qcplus.
      apply equation_value_fext; intros q.
      + unfold object_value. destruct (h_spatial h0 !! q) as [o|]; [|cbn; ring].
        destruct (so_type o); cbn [vscale Qc_value]; ring.
      + ring.
  Qed.
End steady.
