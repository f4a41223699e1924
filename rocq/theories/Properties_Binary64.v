(** C96 for the bits of IEEE 754 binary64 (Flocq's executable definition,
    including overflow, infinities and NaN). *)
From Coq Require Import Reals.
From Flocq Require Import Core.Core IEEE754.BinarySingleNaN IEEE754.Binary IEEE754.Bits.
From Verif Require Import Base Par ParProofs Exec ExecProofs Value Kernel KernelProofs KernelAnyArith Mesh MeshSpec Coeff FV FVSpec FVProofs FVAnyArith ExampleMesh Properties_AnyArith.

Definition b64_of_Z (z : Z) : binary64 := Binary.binary_normalize 53 1024 eq_refl eq_refl mode_NE z 0 false.
Definition b64_of_Qc (q : Qc) : binary64 :=
  b64_div mode_NE (b64_of_Z (QArith_base.Qnum q)) (b64_of_Z (Z.pos (QArith_base.Qden q))).
(** include/NeoFOAM/core/primitives/scalar.hpp:11-15 (scalar = double) *)
Definition b64_value : ValueType binary64 := {|
  vzero := b64_of_Z 0;
  vadd := b64_plus mode_NE;
  vneg := b64_opp;
  vscale := fun k x => b64_mult mode_NE (b64_of_Qc k) x
|}.
Definition tiny (n : positive) : binary64 := b64_div mode_NE (b64_of_Z 1) (b64_of_Z (Zpower_pos 2 n)).
Definition flux64 : list binary64 :=
  [b64_of_Z 1; b64_of_Z 0; b64_of_Z 0; b64_of_Z 0; tiny 53; b64_of_Z 0; b64_of_Z 0; b64_of_Z 0; tiny 52; b64_of_Z 0; b64_of_Z 0; b64_of_Z 0].

(** In binary64 the order matters: on a parallel executor the same call has two
    different results in cell 0 of the 2x2 mesh, whose faces carry 1, 0, 2^-53 and 2^-52. *)
Theorem C96_order_matters : forall e, e <> SerialExecutor -> exists r r',
  @surfaceIntegrate_explicitOperation binary64 b64_value e mesh22 flux64 coeff_default (replicate 4 (b64_of_Z 0)) (Some r) /\
  @surfaceIntegrate_explicitOperation binary64 b64_value e mesh22 flux64 coeff_default (replicate 4 (b64_of_Z 0)) (Some r') /\
  option_map (fun x => B2FF 53 1024 x) (r !! 0) <> option_map (fun x => B2FF 53 1024 x) (r' !! 0).
Proof.
  intros e He.
  pose proof (@surfaceIntegrate_face_op binary64 b64_value mesh22 mesh22_topology e flux64 coeff_default eq_refl) as Hop.
  set (g := @atV binary64 b64_value flux64) in *.
  assert (Hi : @internal_terms binary64 b64_value mesh22 g 0 = [g 0; g 1]) by reflexivity.
  assert (Hb : boundary_terms mesh22 g 0 = [g 4; g 8]) by reflexivity.
  destruct (@adds_op_every binary64 b64_value mesh22 mesh22_topology e g coeff_default _ (replicate 4 (b64_of_Z 0)) 0
    [g 0; g 1] [g 4; g 8] He ltac:(done) eq_refl ltac:(simpl; lia) Hop ltac:(by rewrite Hi) ltac:(by rewrite Hb)) as (r & Hr & Er).
  destruct (@adds_op_every binary64 b64_value mesh22 mesh22_topology e g coeff_default _ (replicate 4 (b64_of_Z 0)) 0
    [g 0; g 1] [g 8; g 4] He ltac:(done) eq_refl ltac:(simpl; lia) Hop ltac:(by rewrite Hi) ltac:(rewrite Hb; by constructor)) as (r' & Hr' & Er').
  exists r, r'. split; [done|]. split; [done|]. intros Heq.
  destruct (@C96_surfaceIntegrate_any_order binary64 b64_value mesh22 mesh22_topology e flux64 coeff_default (replicate 4 (b64_of_Z 0)) eq_refl eq_refl ltac:(done))
    as (_ & _ & Ha).
  destruct (Ha _ Hr) as [Hl _]. destruct (Ha _ Hr') as [Hl' _]. change (length r = 4) in Hl. change (length r' = 4) in Hl'.
  destruct r as [|x r]; [done|]. destruct r' as [|x' r']; [done|]. change (x = @vadd _ b64_value (b64_of_Z 0) (@per_volume _ b64_value mesh22 coeff_default 0 (foldl (@vadd _ b64_value) (foldl (@vadd _ b64_value) (b64_of_Z 0) [g 0; g 1]) [g 4; g 8]))) in Er.
  change (x' = @vadd _ b64_value (b64_of_Z 0) (@per_volume _ b64_value mesh22 coeff_default 0 (foldl (@vadd _ b64_value) (foldl (@vadd _ b64_value) (b64_of_Z 0) [g 0; g 1]) [g 8; g 4]))) in Er'.
  subst x x'. clear -Heq. vm_compute in Heq. discriminate.
Qed.
Print Assumptions C96_order_matters.
