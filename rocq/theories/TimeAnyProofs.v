(** Proofs about TimeAny.v: whole runs have one outcome. *)
From Verif Require Import Base Dict Registry Par ParProofs Exec ExecProofs Fields FieldsProofs Value Kernel Mesh MeshSpec Coeff FV FVSpec FVProofs FVAnyArith Properties_AnyArith Sparsity Assembly AssemblyProps Boundary BoundaryProofs Properties_Boundary Dsl DslSpec DslProofs Properties_Dsl TimeIntProofs TimeIntSteps TimeAny.

(** ** Arithmetic that may round but adds two terms independently of their order. *)
Definition representable {V} `{ValueType V} (x : V) : Prop := vadd vzero x = x.
Record rounding_arithmetic (V : Type) `{ValueType V} : Prop := {
  ra_comm : forall a b : V, vadd a b = vadd b a;
  ra_scale : forall k (x : V), representable (vscale k x);
  ra_neg : forall x : V, representable x -> representable (vneg x);
}.

(** One outcome, the same on all executors that satisfy [on]. *)
Definition same_on {A} (on : executor -> Prop) (p : executor -> outcome A -> Prop) (a : A) : Prop :=
  forall ex, on ex -> surely (p ex) a.

(** Executors on which a cell's contributions add up to the same bits: only the
    serial one, or all if no cell has more than two faces. *)
Definition order_free {V} `{ValueType V} (m : mesh) (on : executor -> Prop) : Prop :=
  (forall ex, on ex -> ex = SerialExecutor) \/
  (rounding_arithmetic V /\ forall c, c < nCells m -> faces_of_cell m c <= 2).

Section acc.
  Context {V : Type} {VT : ValueType V}.
  Context (m : mesh) (Hm : valid_topology m).

  Lemma accumulated_serial (g : nat -> V) c y y' :
    accumulated SerialExecutor m g c vzero y -> accumulated SerialExecutor m g c vzero y' -> y = y'.
  Proof.
    intros (li & lb & _ & _ & H1 & ->) (li' & lb' & _ & _ & H2 & ->).
    destruct (H1 eq_refl) as [-> ->]. destruct (H2 eq_refl) as [-> ->]. done.
  Qed.
  Lemma terms_representable (g : nat -> V) c : rounding_arithmetic V ->
    (forall f, f < nInternalFaces m + nBoundaryFaces m -> representable (g f)) ->
    Forall representable (internal_terms m g c ++ boundary_terms m g c).
  Proof.
    intros HR Hg. apply Forall_app. split; unfold internal_terms, boundary_terms; apply Forall_concat, Forall_forall; intros l Hl.
    - apply elem_of_list_fmap in Hl as (f & -> & Hf%elem_of_seq). apply Forall_app. split; destruct (decide _); constructor; try constructor.
      + apply Hg. lia.
      + apply (ra_neg V HR), Hg. lia.
    - apply elem_of_list_fmap in Hl as (b & -> & Hb%elem_of_seq). destruct (decide _); constructor; try constructor. apply Hg. lia.
  Qed.
  Lemma accumulated_same (on : executor -> Prop) (g : nat -> V) c ex ex' y y' :
    order_free (V := V) m on -> c < nCells m -> on ex -> on ex' ->
    (forall f, f < nInternalFaces m + nBoundaryFaces m -> representable (g f)) \/ (forall x, on x -> x = SerialExecutor) ->
    accumulated ex m g c vzero y -> accumulated ex' m g c vzero y' -> y = y'.
  Proof.
    intros Hof Hc H1 H2 Hg.
    assert ((forall x, on x -> x = SerialExecutor) \/ (rounding_arithmetic V /\ (forall c, c < nCells m -> faces_of_cell m c <= 2) /\
      forall f, f < nInternalFaces m + nBoundaryFaces m -> representable (g f))) as [Hs|(HR & Hf & Hrep)].
    { destruct Hof as [?|[? ?]]; [by left|]. destruct Hg as [?|?]; [by right|by left]. }
    - rewrite (Hs _ H1), (Hs _ H2). apply accumulated_serial.
    - intros A1 A2. apply (accumulated_two m Hm g c ex ex' y y'); [by apply Hf| |done|done].
      intros a b Ha Hb. pose proof (terms_representable g c HR Hrep) as F. rewrite Forall_forall in F.
      pose proof (F _ Ha) as Fa. pose proof (F _ Hb) as Fb. unfold representable in Fa, Fb. rewrite Fa, Fb. apply (ra_comm V HR).
  Qed.
  (** An operator that adds accumulated terms has the same single outcome everywhere. *)
  Lemma adds_same (on : executor -> Prop) (g : nat -> V) scaling source (op : executor -> list V -> option (list V) -> Prop) ex0 :
    order_free (V := V) m on -> on ex0 ->
    (forall f, f < nInternalFaces m + nBoundaryFaces m -> representable (g f)) \/ (forall x, on x -> x = SerialExecutor) ->
    (forall ex junk, on ex -> length junk = nFaces m -> every_outcome (op ex junk) (adds_accumulated ex m g scaling source)) ->
    exists res, length res = nCells m /\ forall ex junk, on ex -> length junk = nFaces m -> always (op ex junk) res.
  Proof.
    intros Hof H0 Hg Hop.
    destruct (Hop ex0 (replicate (nFaces m) vzero) H0 ltac:(by rewrite replicate_length)) as (_ & (res & Hres) & Ha0).
    pose proof (Ha0 _ Hres) as [Hlen Hval]. exists res. split; [done|]. intros ex junk Hex Hj.
    destruct (Hop ex junk Hex Hj) as (Hn & (a & Ha) & Hall).
    assert (Hu : forall b, op ex junk (Some b) -> b = res).
    { intros b Hb. apply Hall in Hb as [Hlb Hb]. apply (list_eq_same_length _ _ (nCells m)); [done|done|].
      intros i x y Hi Hx Hy. destruct (Hval i Hi) as (v & Av & Ev). destruct (Hb i Hi) as (w & Aw & Ew).
      rewrite (accumulated_same on g i ex ex0 w v Hof Hi Hex H0 Hg Aw Av) in Ew. rewrite <- Ev in Ew.
      unfold atV in Ew. rewrite Hx, Hy in Ew. done. }
    intros r. split.
    - intros Hr. destruct r as [b|]; [|done]. by rewrite (Hu b Hr).
    - intros ->. by rewrite <- (Hu a Ha).
  Qed.
End acc.

Section fields.
  Context {V : Type} {VT : ValueType V}.
  Lemma surely_fop_any (p : Fields.field V -> outcome unit -> Prop) (a : list V) :
    (forall c o, p c o -> o = Ok tt /\ fdata c = a) -> (exists c, p c (Ok tt)) -> surely (fop_any p) a.
  Proof.
    intros H1 [c0 H0] r. split.
    - intros (c & o & Hp & ->). destruct (H1 c o Hp) as [-> E]. by rewrite E.
    - intros ->. destruct (H1 c0 (Ok tt) H0) as [_ E]. exists c0, (Ok tt). split; [done|]. by rewrite E.
  Qed.
  Context (e : executor).
  Notation F := (Fields.mkField e).
  Lemma fop_any_assign (a b : list V) : surely (fop_any (Fields.assign_field (F a) (F b))) b.
  Proof.
    apply surely_fop_any.
    - intros c o Hs. apply assign_field_ok in Hs as [-> ->]; done.
    - by apply assign_exists.
  Qed.
  Lemma fop_any_minus dbg (a b : list V) : length a = length b ->
    surely (fop_any (minus_any dbg (F a) (F b))) (zip_with vsub a b).
  Proof.
    intros Hl. apply surely_fop_any.
    - intros c o Hs. unfold minus_any, new_copy in Hs. cbn [fexec fdata] in Hs.
      apply checked_binop_ok in Hs as (-> & _ & Hlen & Hp); [|done|done]. split; [done|].
      unfold fsize in Hlen. cbn [fdata] in *.
      apply (list_eq_same_length _ _ (length a)); [rewrite zip_with_length; lia|done|].
      intros i x y Hi Hx Hy. rewrite lookup_zip_with in Hy.
      destruct (a !! i) as [xa|] eqn:Ea; [|done]. destruct (b !! i) as [xb|] eqn:Eb; [|done]. simpl in Hy. injection Hy as <-.
      rewrite (Hp i xa xb Ea Eb) in Hx. by injection Hx as <-.
    - unfold minus_any, new_copy. cbn [fexec fdata].
      destruct (binop_exists dbg vsub (F a) (F b)) as [c Hc]; [done|done|]. by exists c.
  Qed.
  Lemma fop_any_scale (l : list V) k : surely (fop_any (scale_any (F l) k)) (map (vscale k) l).
  Proof.
    apply surely_fop_any.
    - intros c o (r0 & r1 & o1 & [He0 Hs0] & Ha & H). apply assign_field_ok in Ha as [-> ->]; [|done].
      destruct H as (r & Hr & Ho). apply rmw_exec in Hr as (s' & -> & Hl & Hp); [|lia|unfold fsize; lia|eauto].
      destruct Ho as [-> ->]. split; [done|]. cbn [fdata fexec] in *. unfold fsize in *. cbn [fdata] in *.
      apply (list_eq_same_length _ _ (length l)); [by rewrite map_length|done|].
      intros i x y Hi Hx Hy. rewrite (list_lookup_fmap _ l i) in Hy.
      destruct (l !! i) as [z|] eqn:Ez; [|done]. simpl in Hy. injection Hy as <-.
      rewrite Hp in Hx. rewrite decide_True in Hx by lia. rewrite Ez in Hx. simpl in Hx. by injection Hx as <-.
    - destruct (assign_exists (F l) (F l) eq_refl) as [r1 H1].
      assert (r1 = F l) as -> by (by apply assign_field_ok in H1 as [_ ->]).
      destruct (rmw_exec_exists (fun _ va => Some (vscale k va)) e 0 (length l) l) as [s' H]; [lia|lia|eauto|].
      exists (Fields.mkField e s'), (F l), (F l), (Ok tt). split; [done|]. split; [done|]. exists (Some s'). done.
  Qed.
End fields.

Section run.
  Context {V : Type} {VT : ValueType V} {VU : ValueUnit V} {VG : ValueTag V}.
  Context (cx : ctx V) (n : nat) (bcs : list (patch * volBC V)).
  Notation m := (cx_mesh cx).

  (** Mesh, geometry and boundary conditions fit together. *)
  Definition setup_any : Prop :=
    valid_topology m /\ length (cx_weights cx) = nFaces m /\ length (cx_dc cx) = nFaces m /\
    length (magFaceAreas m) = nFaces m /\ length (bDeltaCoeffs (bmesh m)) = nBoundaryFaces m /\
    Forall (fun a => patch_ok m a.1) bcs.
  Definition state_any (phi : volField V) (old : list V) : Prop := sized m (nCells m) phi /\ length old = nCells m.

  (** The fields an operator reads fit the mesh (those of the solution are
      covered by [state_any]); a face field that is summed holds numbers of the
      arithmetic. *)
  Definition operand_fits (k : spatialKind V) : Prop :=
    match k with
    | DivOperator flux phi _ | LaplacianOperator flux phi _ =>
        length (cx_surf cx flux) = nFaces m /\ (phi <> n -> field_ok m (cx_vol cx phi))
    | SurfaceIntegrate flux => length (cx_surfV cx flux) = nFaces m /\
        (forall f, f < nInternalFaces m + nBoundaryFaces m -> representable (atV (cx_surfV cx flux) f))
    | SourceTerm _ _ => True
    | UserOperator _ => False
    end.
  Definition built (k : spatialKind V) : Prop :=
    match k with DivOperator _ _ s => s <> None | LaplacianOperator _ _ b => b = true | _ => True end.
  Definition op_fits (o : spatialOp V) : Prop := operand_fits (so_kind o) /\ coeff_ok (so_coeff o) (nCells m).

  Context (Hset : setup_any).
  Context (on : executor -> Prop) (ex0 : executor) (Hon0 : on ex0) (Hof : order_free (V := V) m on).

  Lemma rep_scale (g : nat -> V) (k : nat -> Qc) (x : nat -> V) : (forall f, g f = vscale (k f) (x f)) ->
    (forall f, f < nInternalFaces m + nBoundaryFaces m -> representable (g f)) \/ (forall x, on x -> x = SerialExecutor).
  Proof using Hof.
    intros Hg. destruct Hof as [?|[HR _]]; [by right|]. left. intros f _. rewrite Hg. apply (ra_scale V HR).
  Qed.

  Lemma op_same o phi old source : state_any phi old -> op_fits o -> built (so_kind o) -> length source = nCells m ->
    exists res, length res = nCells m /\ same_on on (fun ex => spatial_explicit (seen (on_executor ex cx) n phi old) o source) res.
  Proof using Hset Hon0 Hof.
    destruct Hset as (Hm & Hw & Hdc & Hmag & Hbd & Hpo).
    intros [Hsz Hlo] [Hk Hco] Hb Hs. destruct o as [k ty co]. unfold spatial_explicit, same_on. cbn [so_kind so_coeff] in *.
    destruct (HasExplicitOperator (class_of k)) eqn:Ehas; [|exists source; split; [done|]; intros ex _ r; done].
    unfold concrete_explicit. cbn [so_kind so_coeff].
    assert (Hfld : forall q, (q <> n -> field_ok m (cx_vol cx q)) -> field_ok m (if decide (q = n) then phi else cx_vol cx q)).
    { intros q Hq. destruct (decide (q = n)); [|by apply Hq]. destruct Hsz as (A & B & _). by split. }
    destruct k as [flux q s|gamma q b|flux|coef q|u]; cbn in Hb, Hk; try contradiction.
    - destruct s as [s|]; [|done]. destruct Hk as [Hfl Hq].
      destruct (adds_same m Hm on (fun f => vscale (at0 (cx_surf cx flux) f) (face_value m s (if decide (q = n) then phi else cx_vol cx q) (cx_surf cx flux) (cx_weights cx) f)) co source
        (fun ex junk => div_explicitOperation ex m (cx_surf cx flux) (if decide (q = n) then phi else cx_vol cx q) s (cx_weights cx) junk co source) ex0 Hof Hon0)
        as (res & Hl & Hres).
      + by eapply rep_scale.
      + intros ex junk _ Hj. apply C96_div_any_order; try done. by apply Hfld.
      + exists res. split; [done|]. intros ex Hex.
        apply (surely_junk (nFaces m) (fun _ => True) (fun junk => lift (div_explicitOperation ex m (cx_surf cx flux) (if decide (q = n) then phi else cx_vol cx q) s (cx_weights cx) junk co source)) vzero).
        intros junk Hj. apply surely_lift. by apply Hres.
    - subst b. destruct Hk as [Hfl Hq].
      destruct (adds_same m Hm on (fun f => vscale (at0 (magFaceAreas m) f) (normal_gradient m (if decide (q = n) then phi else cx_vol cx q) (cx_dc cx) f)) co source
        (fun ex junk => laplacian_explicitOperation ex m (cx_dc cx) (cx_surf cx gamma) (if decide (q = n) then phi else cx_vol cx q) junk co source) ex0 Hof Hon0)
        as (res & Hl & Hres).
      + by eapply rep_scale.
      + intros ex junk _ Hj. apply C96_laplacian_any_order; try done. by apply Hfld.
      + exists res. split; [done|]. intros ex Hex.
        apply (surely_junk (nFaces m) (fun _ => True) (fun junk => lift (laplacian_explicitOperation ex m (cx_dc cx) (cx_surf cx gamma) (if decide (q = n) then phi else cx_vol cx q) junk co source)) vzero).
        intros junk Hj. apply surely_lift. by apply Hres.
    - destruct Hk as [Hfl Hrep].
      destruct (adds_same m Hm on (atV (cx_surfV cx flux)) co source
        (fun ex _ => surfaceIntegrate_explicitOperation ex m (cx_surfV cx flux) co source) ex0 Hof Hon0)
        as (res & Hl & Hres).
      + by left.
      + intros ex junk _ _. by apply C96_surfaceIntegrate_any_order.
      + exists res. split; [done|]. intros ex Hex. apply surely_lift.
        apply (Hres ex (replicate (nFaces m) vzero)); [done|by rewrite replicate_length].
    - unfold HasExplicitOperator in Ehas. cbn in Ehas. discriminate.
  Qed.

  (** The explicit operators of an expression. *)
  Definition ops_fit (h : heap V) (l : list nat) : Prop := forall p, p ∈ l -> exists o, h_spatial h !! p = Some o /\ op_fits o.
  Definition ops_built (h : heap V) (l : list nat) : Prop := forall p o, p ∈ l -> h_spatial h !! p = Some o -> built (so_kind o).
  Lemma explicit_same h phi old : state_any phi old -> forall l source, ops_fit h l -> ops_built h l -> length source = nCells m ->
    exists res, length res = nCells m /\ same_on on (fun ex => run_explicit (seen (on_executor ex cx) n phi old) h l source) res.
  Proof using Hset Hon0 Hof.
    intros Hst. induction l as [|p l IH]; intros source Hf Hb Hs.
    - exists source. split; [done|]. intros ex _ r. done.
    - destruct (Hf p ltac:(by left)) as (o & Eo & Ho). pose proof (Hb p o ltac:(by left) Eo) as Hbo.
      assert (Hf' : ops_fit h l) by (intros q Hq; apply Hf; by right).
      assert (Hb' : ops_built h l) by (intros q oq Hq; apply Hb; by right).
      destruct (decide (so_type o = Explicit)) as [Ht|Ht].
      + destruct (op_same o phi old source Hst Ho Hbo Hs) as (s1 & Hl1 & H1). destruct (IH s1 Hf' Hb' Hl1) as (res & Hl & H2).
        exists res. split; [done|]. intros ex Hex r. cbn [run_explicit]. rewrite Eo, decide_True by done.
        rewrite (rseq_surely _ _ s1) by (by apply H1). by apply H2.
      + destruct (IH source Hf' Hb' Hs) as (res & Hl & H2). exists res. split; [done|]. intros ex Hex r.
        cbn [run_explicit]. rewrite Eo, decide_False by done. by apply H2.
  Qed.

  (** Boundary conditions. *)
  Lemma correct_same : forall l phi, Forall (fun a => patch_ok m a.1) l -> sized m (nCells m) phi ->
    exists phi', sized m (nCells m) phi' /\ vf_int phi' = vf_int phi /\ forall ex, always (vol_correctBoundaryConditions ex m l phi) phi'.
  Proof using Hset.
    destruct Hset as (Hm & Hw & Hdc & Hmag & Hbd & _).
    induction l as [|[p bc] l IH]; intros phi Hp Hsz; [exists phi; split; [done|]; split; [done|]; intros ex r; done|].
    apply Forall_cons in Hp as [Hp1 Hp].
    destruct (vol_effect m SerialExecutor p bc phi Hm Hbd Hp1 Hsz) as (q & Aq & Rq & Sq).
    destruct (IH q Hp (sized_shape _ _ _ _ Sq Hsz)) as (phi' & Hsz' & Hint & H').
    exists phi'. split; [done|]. split; [rewrite Hint; by apply (vol_int m p bc)|].
    intros ex r. destruct (vol_effect m ex p bc phi Hm Hbd Hp1 Hsz) as (q' & Aq' & Rq' & _).
    assert (q' = q) as -> by (by apply (replaced_unique _ _ _ _ Rq' Rq)).
    unfold vol_correctBoundaryConditions. cbn [correct_all]. split.
    - intros [[Hn _]|(a & Ha & Hr)]; [by apply Aq' in Hn|]. apply Aq' in Ha. injection Ha as ->. by apply (H' ex).
    - intros ->. right. exists q. split; [by apply Aq'|]. by apply (H' ex).
  Qed.

  (** One step. *)
  Lemma step_same h e dt phi old : state_any phi old -> ops_fit h (ex_spatial e) -> ops_built h (ex_spatial e) ->
    exists phi' old', state_any phi' old' /\
      forall dbg, same_on on (fun ex => forwardEuler_any dbg (on_executor ex cx) n bcs h e dt phi old) (phi', old').
  Proof using Hset Hon0 Hof.
    intros Hst Hf Hb. pose proof Hst as [Hsz Hlo]. pose proof Hsz as (Hli & _).
    destruct (explicit_same h phi old Hst (ex_spatial e) (replicate (nCells m) vzero) Hf Hb) as (src & Hls & Hsrc); [by rewrite replicate_length|].
    set (new := zip_with vsub old (map (vscale dt) src)).
    assert (Hln : length new = nCells m) by (unfold new; rewrite zip_with_length, map_length; lia).
    destruct (correct_same bcs (with_int phi new)) as (phi' & Hsz' & Hint & Hbc).
    { apply Hset. }
    { destruct Hsz as (A & B & C & D & E). done. }
    exists phi', new. split; [by split|]. intros dbg ex Hex r. unfold forwardEuler_any. cbn [cx_exec cx_mesh on_executor].
    unfold explicitOperation_n, explicitOperation. rewrite Hli.
    rewrite (rseq_surely _ _ src) by (by apply Hsrc).
    rewrite (rseq_surely _ _ (map (vscale dt) src)) by apply fop_any_scale.
    rewrite (rseq_surely _ _ new) by (apply fop_any_minus; rewrite map_length; lia).
    rewrite (rseq_surely _ _ new) by apply fop_any_assign.
    rewrite (rseq_surely _ _ phi') by (apply surely_lift, Hbc).
    rewrite (rseq_surely _ _ new); [done|]. rewrite Hint. apply fop_any_assign.
  Qed.

  (** build *)
  Context (d : dict).
  Definition buildable (o : spatialOp V) : Prop := exists o', op_build cx d o = Ok o'.
  Lemma op_built o o' : op_build cx d o = Ok o' ->
    built (so_kind o') /\ buildable o' /\ (op_fits o -> op_fits o').
  Proof using.
    clear. unfold op_build, buildable, op_fits. destruct o as [k t co]. cbn [so_kind so_type so_coeff].
    destruct k as [f p s|g p b|f|c p|u]; try (intros [=<-]; cbn; by eauto).
    - match goal with |- context [(div_build ?a ?b ?c).1] => destruct (div_build a b c).1 as [[? ?]| | |] eqn:E end; try done.
      intros [=<-]. cbn [so_kind so_type so_coeff]. split; [by cbn|]. split; [|done]. cbn [op_build so_kind]. rewrite E. eauto.
    - match goal with |- context [(laplacian_build ?a ?b ?c).1] => destruct (laplacian_build a b c).1 as [?| | |] eqn:E end; try done.
      intros [=<-]. cbn [so_kind so_type so_coeff]. split; [by cbn|]. split; [|done]. cbn [op_build so_kind]. rewrite E. eauto.
  Qed.
  Definition ops_ready (h : heap V) (l : list nat) : Prop :=
    forall p, p ∈ l -> exists o, h_spatial h !! p = Some o /\ op_fits o /\ buildable o.
  Lemma build_same all : forall l done_ h, (forall p, p ∈ l -> p ∈ all) -> ops_ready h all -> ops_built h done_ ->
    exists h', buildS cx d l h = Ok (tt, h') /\ ops_ready h' all /\ ops_built h' (done_ ++ l).
  Proof using.
    clear. induction l as [|p l IH]; intros done_ h Hl Hr Hb.
    - exists h. rewrite app_nil_r. done.
    - destruct (Hr p (Hl p ltac:(by left))) as (o & Eo & Hfo & o' & Eb). destruct (op_built o o' Eb) as (B1 & B2 & B3).
      set (h1 := Heap (<[p := o']> (h_spatial h)) (h_temporal h)).
      assert (Elk : forall q oq, h_spatial h1 !! q = Some oq -> (q = p /\ oq = o') \/ (q <> p /\ h_spatial h !! q = Some oq)).
      { intros q oq. unfold h1. cbn [h_spatial]. destruct (decide (q = p)) as [->|Hne].
        - rewrite list_lookup_insert by (by apply lookup_lt_Some in Eo). intros [= <-]. by left.
        - rewrite list_lookup_insert_ne by done. by right. }
      destruct (IH (done_ ++ [p]) h1) as (h' & E' & R' & B').
      + intros q Hq. apply Hl. by right.
      + intros q Hq. unfold h1. cbn [h_spatial]. destruct (decide (q = p)) as [->|Hne].
        * exists o'. rewrite list_lookup_insert by (by apply lookup_lt_Some in Eo). split; [done|]. split; [by apply B3|done].
        * rewrite list_lookup_insert_ne by done. by apply Hr.
      + intros q oq Hq Eq. destruct (Elk q oq Eq) as [[-> ->]|[Hne Eq']]; [done|].
        apply elem_of_app in Hq as [Hq|Hq%elem_of_list_singleton]; [|done]. by apply (Hb q).
      + exists h'. split; [|split; [done|by rewrite <- app_assoc in B']].
        cbn [buildS]. unfold bind, readS. rewrite Eo, Eb. exact E'.
  Qed.

  Lemma build_seen ex phi old : forall l h, buildS (seen (on_executor ex cx) n phi old) d l h = buildS cx d l h.
  Proof using.
    clear. induction l as [|p l IH]; intros h; [done|]. cbn [buildS]. unfold bind, readS, writeS.
    destruct (h_spatial h !! p) as [o|]; [|done].
    change (op_build (seen (on_executor ex cx) n phi old) d o) with (op_build cx d o). by destruct (op_build cx d o).
  Qed.

  (** The whole loop. *)
  Lemma loop_same e : forall dts h phi old, state_any phi old -> ops_ready h (ex_spatial e) ->
    exists h' phi' old', state_any phi' old' /\ ops_ready h' (ex_spatial e) /\
      forall dbg, same_on on (fun ex => time_loop_any dbg (on_executor ex cx) n bcs d e dts h phi old) (h', (phi', old')).
  Proof using Hset Hon0 Hof.
    induction dts as [|dt dts IH]; intros h phi old Hst Hr.
    - exists h, phi, old. split; [done|]. split; [done|]. intros dbg ex _ r. done.
    - destruct (build_same (ex_spatial e) (ex_spatial e) [] h) as (h1 & E1 & R1 & B1); [done|done|intros p o Hp; by apply elem_of_nil in Hp|].
      cbn [app] in B1.
      destruct (step_same h1 e dt phi old Hst) as (phi1 & old1 & Hst1 & Hs1); [|done|].
      { intros p Hp. destruct (R1 p Hp) as (o & Eo & Ho & _). eauto. }
      destruct (IH h1 phi1 old1 Hst1 R1) as (h' & phi' & old' & Hst' & R' & Hall).
      exists h', phi', old'. split; [done|]. split; [done|]. intros dbg ex Hex r. cbn [time_loop_any].
      rewrite (rseq_surely _ _ (h1, (phi1, old1))); [by apply Hall|].
      intros r'. unfold dsl_solve_any. rewrite (rseq_surely _ _ (tt, h1)).
      + rewrite (rseq_surely _ _ (phi1, old1)); [done|]. by apply Hs1.
      + intros r''. unfold expr_build. rewrite build_seen. by rewrite E1.
  Qed.
End run.
