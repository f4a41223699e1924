(** A concrete 2x2 unit-square mesh used to instantiate theorems and to build
    counterexamples: cells 0 1 / 2 3, every cell has two boundary faces. *)
From Verif Require Import Base Value Mesh MeshSpec.

Definition quarter : Qc := (half * half)%Qc.
Definition mesh22 : mesh :=
  let V x y := Vec x y 0 in
  let q1 := quarter in let q3 := (1 - quarter)%Qc in
  let fa := [V half 0%Qc; V 0%Qc half; V 0%Qc half; V half 0%Qc] in
  let ba := [V (-half) 0; V (-half) 0; V half 0; V half 0;
             V 0 (-half); V 0 (-half); V 0 half; V 0 half]%Qc in
  let bc := [V 0 q1; V 0 q3; V 1 q1; V 1 q3; V q1 0; V q3 0; V q1 1; V q3 1]%Qc in
  let bcell := [0; 2; 1; 3; 0; 1; 2; 3]%nat in
  let cc := [V q1 q1; V q3 q1; V q1 q3; V q3 q3] in
  let bd := [V (-q1) 0; V (-q1) 0; V q1 0; V q1 0; V 0 (-q1); V 0 (-q1); V 0 q1; V 0 q1]%Qc in
  Mesh [] (replicate 4 quarter) cc (fa ++ ba)
    ([V half q1; V q1 half; V q3 half; V half q3] ++ bc)
    (replicate 12 half)
    ([0; 0; 1; 2] ++ bcell)%nat [1; 2; 3; 3]%nat
    4 4 8 4 12
    (BoundaryMesh bcell bc (map (fun c => atv cc c) bcell) ba (replicate 8 half)
       (map (fun v => vec_scale (1 + 1) v) ba) bd (replicate 8 1%Qc)
       (replicate 8 (Q2Qc 4)) [0; 2; 4; 6; 8]%nat).

Ltac cases_lt x :=
  repeat (destruct x as [|x]; [|try lia]).

Lemma mesh22_topology : valid_topology mesh22.
Proof.
  split; try done.
  all: intros f Hf; simpl in Hf; do 8 (destruct f as [|f]; [first [lia | vm_compute; lia | reflexivity]|]); lia.
Qed.

Lemma mesh22_geometry : valid_geometry mesh22.
Proof.
  split; try done.
  - intros f Hf. simpl in Hf.
    do 12 (destruct f as [|f]; [split; [reflexivity|apply Qc_is_canon; reflexivity]|]). lia.
  - intros f Hf. simpl in Hf. do 4 (destruct f as [|f]; [reflexivity|]). lia.
  - intros f Hf. simpl in Hf. do 8 (destruct f as [|f]; [reflexivity|]). lia.
  - intros f Hf. simpl in Hf.
    do 4 (destruct f as [|f]; [apply (bool_decide_unpack _); vm_compute; reflexivity|]). lia.
Qed.

Lemma mesh22_upper : upper_triangular mesh22.
Proof.
  intros f g Hfg Hg. simpl in Hg.
  do 4 (destruct g as [|g]; [do 4 (destruct f as [|f]; [vm_compute; lia|]); lia|]). lia.
Qed.
