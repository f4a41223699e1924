(** Proofs about TimeInt.v. *)
From Verif Require Import Base Dict Registry Par ParProofs Exec ExecProofs Fields FieldsProofs Value Kernel Mesh Coeff FV Sparsity Assembly AssemblyProps Boundary Dsl DslSpec DslProofs TimeInt.

Definition as_list (c : Fields.field Qc) (o : outcome unit) : outcome (list Qc) :=
  match o with Ok _ => Ok (fdata c) | Throw x => Throw x | Exit => Exit | UB => UB end.
Lemma surely_fop (p : Fields.field Qc -> outcome unit -> Prop) (a : list Qc) :
  (forall c o, p c o -> o = Ok tt /\ fdata c = a) -> (exists c, p c (Ok tt)) -> surely (fop p) a.
Proof.
  intros H1 [c0 H0] r. split.
  - intros (c & o & Hp & ->). destruct (H1 c o Hp) as [-> E]. by rewrite E.
  - intros ->. destruct (H1 c0 (Ok tt) H0) as [_ E]. exists c0, (Ok tt). split; [done|]. by rewrite E.
Qed.

Lemma rmw_total (a : Fields.field Qc) (f : Qc -> Qc) :
  exists a', Fields.kernel_on a (iterations 0 (fsize a) (rmw_kernel (fun _ va => Some (f va)))) a' (Ok tt).
Proof.
  destruct (rmw_exec_exists (fun _ va => Some (f va)) (fexec a) 0 (fsize a) (fdata a)) as [s' H]; [lia|unfold fsize; lia|eauto|].
  exists (Fields.mkField (fexec a) s'), (Some s'). split; [done|]. done.
Qed.
Lemma assign_exists {V} (a rhs : Fields.field V) : fexec a = fexec rhs -> exists a', Fields.assign_field a rhs a' (Ok tt).
Proof.
  intros He. unfold Fields.assign_field. rewrite He, exec_eqb_refl.
  assert (Hset : forall b : Fields.field V, fsize b = fsize rhs -> exists a', setField b (fdata rhs) default_range a' (Ok tt)).
  { intros b Hb. unfold setField. apply (set_kernel_exists b); simpl.
    - lia.
    - unfold eff_end, default_range. simpl. lia.
    - intros i _ Hi. apply lookup_lt_is_Some_2. unfold eff_end, default_range, fsize in *. simpl in *. lia. }
  destruct (Nat.eqb_spec (fsize a) (fsize rhs)) as [E|E].
  - by apply Hset.
  - unfold resize.
    assert (exists a1 : Fields.field V, fexec a1 = fexec a /\ fsize a1 = fsize rhs /\
       (fdata a = [] \/ firstn (Nat.min (fsize rhs) (fsize a)) (fdata a1) = firstn (fsize rhs) (fdata a))) as (a1 & Ha).
    { destruct (fdata rhs) as [|x0 ?] eqn:Er.
      - exists (Fields.mkField (fexec a) []). split; [done|]. split; [unfold fsize; by rewrite Er|].
        right. unfold fsize at 1 3. rewrite Er. done.
      - exists (Fields.mkField (fexec a) (take (fsize rhs) (fdata a) ++ replicate (fsize rhs - fsize a) x0)).
        split; [done|]. split; [unfold fsize; cbn [fdata]; rewrite app_length, take_length, replicate_length; lia|].
        right. cbn [fdata]. rewrite take_app_alt; [done|]. rewrite take_length. unfold fsize. lia. }
    destruct (Hset a1) as [a' Ha']; [tauto|]. exists a', a1. split; [|done]. exact Ha.
Qed.

Section ops.
  Context (e : executor).
  Notation F := (Fields.mkField e).
  Lemma fop_scale (l : list Qc) k : surely (fop (Fields.scale (F l) k)) (map (fun x => x * k)%Qc l).
  Proof.
    apply surely_fop.
    - intros c o Hs. apply scale_ok in Hs as (-> & _ & Hl & Hp). split; [done|].
      unfold fsize in Hl. cbn [fdata] in *. apply (list_eq_same_length _ _ (length l)); [by rewrite map_length|done|].
      intros i x y Hi Hx Hy. rewrite (list_lookup_fmap _ l i) in Hy.
      destruct (l !! i) as [z|] eqn:Ez; [|done]. simpl in Hy. injection Hy as <-.
      rewrite (Hp i z Ez) in Hx. by injection Hx as <-.
    - unfold Fields.scale.
      destruct (assign_exists (F l) (F l) eq_refl) as [r1 H1].
      assert (r1 = F l) as -> by (by apply assign_field_ok in H1 as [_ ->]).
      destruct (rmw_total (F l) (fun x => x * k)%Qc) as [c Hc].
      exists c, (F l), (F l), (Ok tt). done.
  Qed.
  Lemma fop_minus dbg (a b : list Qc) : length a = length b ->
    surely (fop (Fields.minus dbg (F a) (F b))) (zip_with (fun x y => x - y)%Qc a b).
  Proof.
    intros Hl. apply surely_fop.
    - intros c o Hs. unfold Fields.minus, Fields.minus_assign, new_copy in Hs. cbn [fexec fdata] in Hs.
      apply checked_binop_ok in Hs as (-> & _ & Hlen & Hp); [|done|done]. split; [done|].
      unfold fsize in Hlen. cbn [fdata] in *.
      apply (list_eq_same_length _ _ (length a)); [rewrite zip_with_length; lia|done|].
      intros i x y Hi Hx Hy. rewrite lookup_zip_with in Hy.
      destruct (a !! i) as [xa|] eqn:Ea; [|done]. destruct (b !! i) as [xb|] eqn:Eb; [|done]. simpl in Hy. injection Hy as <-.
      rewrite (Hp i xa xb Ea Eb) in Hx. by injection Hx as <-.
    - unfold Fields.minus, Fields.minus_assign, new_copy. cbn [fexec fdata].
      destruct (binop_exists dbg Qcminus (F a) (F b)) as [c Hc]; [done|done|]. by exists c.
  Qed.
  Lemma fop_assign (a b : list Qc) : surely (fop (Fields.assign_field (F a) (F b))) b.
  Proof.
    apply surely_fop.
    - intros c o Hs. apply assign_field_ok in Hs as [-> ->]; done.
    - by apply assign_exists.
  Qed.
  Lemma fop_copy (a b : list Qc) : length a = length b ->
    surely (fop (Fields.kernel_on (F a) (iterations 0 (length b) (set_kernel (fun i => b !! i))))) b.
  Proof.
    intros Hl. apply surely_fop.
    - intros c o Hs. apply set_range in Hs as (-> & _ & Hlen & Hp).
      + split; [done|]. unfold fsize in Hlen. cbn [fdata] in *. apply list_eq. intros i. rewrite Hp.
        destruct (decide (0 <= i < length b)); [done|]. rewrite !lookup_ge_None_2 by lia. done.
      + lia.
      + unfold fsize. cbn [fdata]. lia.
      + intros i _ Hi. by apply lookup_lt_is_Some_2.
    - apply set_kernel_exists; [lia|unfold fsize; cbn [fdata]; lia|]. intros i _ Hi. by apply lookup_lt_is_Some_2.
  Qed.
End ops.
