(** Proofs about ImplicitAny.v: on the serial executor whole implicit runs have one
    outcome. *)
From Verif Require Import Base Dict Registry Par ParProofs Exec ExecProofs Fields FieldsProofs Value Kernel KernelProofs Mesh MeshSpec MeshProofs Coeff FV FVSpec FVProofs FVAnyArith Properties_AnyArith Sparsity SparsitySpec SparsityMain SparsityProps SparsityProofs SparsityDet Properties_Sparsity Assembly AssemblySpec AssemblyProofs AssemblyProps Boundary BoundaryProofs Properties_Boundary Dsl DslSpec DslProofs Properties_Dsl Properties_ExactPattern AssemblyAnyArith Properties_AssemblyAny TimeInt TimeIntProofs TimeIntSteps TimeAny TimeAnyProofs ImplicitAny.

(** What the outcome is: not undefined behaviour, [P] holds of a normal result, and
    - when [ends] - it is a normal result. *)
Definition sound (ends : bool) {A} (P : A -> Prop) (o : outcome A) : Prop :=
  match o with Ok a => P a | UB => False | _ => ends = false end.
(** The same one outcome in debug and release builds. *)
Definition single (ends : bool) {A} (P : A -> Prop) (p : bool -> outcome A -> Prop) : Prop :=
  exists o, (forall dbg r, p dbg r <-> r = o) /\ sound ends P o.

Lemma single_seq (ends : bool) {A B} (P : A -> Prop) (Q : B -> Prop) (p : bool -> outcome A -> Prop) (k : bool -> A -> outcome B -> Prop) :
  single ends P p -> (forall a, P a -> single ends Q (fun dbg => k dbg a)) -> single ends Q (fun dbg => rseq (p dbg) (k dbg)).
Proof.
  intros (o & Ho & HP) Hk. destruct o as [a|x| |]; [|exists (Throw x)|exists Exit|done].
  - destruct (Hk a HP) as (o' & Ho' & HQ). exists o'. split; [|done]. intros dbg r. rewrite <- (Ho' dbg r). unfold rseq. split.
    + intros [(b & Hb & H)|[(x & Hx & _)|[[Hx _]|[Hx _]]]]; apply Ho in Hx || apply Ho in Hb; [by injection Hb as ->|done..].
    + intros H. left. exists a. split; [by apply Ho|done].
  - split; [|done]. intros dbg r. split.
    + intros [(b & Hb & H)|[(y & Hx & ->)|[[Hx ->]|[Hx ->]]]]; apply Ho in Hx || apply Ho in Hb; try discriminate; by try injection Hx as ->.
    + intros ->. right. left. exists x. split; [by apply Ho|done].
  - split; [|done]. intros dbg r. split.
    + intros [(b & Hb & H)|[(y & Hx & ->)|[[Hx ->]|[Hx ->]]]]; apply Ho in Hx || apply Ho in Hb; try discriminate; by try injection Hx as ->.
    + intros ->. right. right. left. split; [by apply Ho|done].
Qed.
Lemma single_surely (ends : bool) {A} (P : A -> Prop) (p : bool -> outcome A -> Prop) a : (forall dbg, surely (p dbg) a) -> P a -> single ends P p.
Proof. intros H HP. by exists (Ok a). Qed.
Lemma single_ret (ends : bool) {A} (P : A -> Prop) (o : outcome A) : sound ends P o -> single ends P (fun _ r => r = o).
Proof. intros H. by exists o. Qed.
(** A loop over a kernel on the serial executor. *)
Definition one_result {A} (op : option A -> Prop) : Prop := forall x y, op x -> op y -> x = y.
Lemma single_lift (ends : bool) {A} (P : A -> Prop) (op : option A -> Prop) : one_result op -> every_outcome op P -> single ends P (fun _ => lift op).
Proof.
  intros H1 (Hn & (a & Ha) & Hall). exists (Ok a). split; [|by apply Hall]. intros _ r. split.
  - intros (o & Ho & ->). by rewrite (H1 _ _ Ho Ha).
  - intros ->. by exists (Some a).
Qed.
Lemma single_impl (ends : bool) {A} (P Q : A -> Prop) p : single ends P p -> (forall a, P a -> Q a) -> single ends Q p.
Proof. intros (o & Ho & H) HI. exists o. split; [done|]. unfold sound in *. destruct o; auto. Qed.
Lemma pfor_serial_one {V} `{ValueType V} a b (k : nat -> option (list (stmt V))) (s : list (list V)) : one_result (pfor SerialExecutor a b k s).
Proof. intros x y. unfold pfor, exec_result. congruence. Qed.
Lemma pseq_one {V} `{ValueType V} p q (s : list (list V)) : one_result (p s) -> (forall s', one_result (q s')) -> one_result (pseq p q s).
Proof.
  intros Hp Hq x y. unfold pseq. intros [[A ->]|(s1 & A & A')] [[B ->]|(s2 & B & B')]; [done| | |].
  - pose proof (Hp _ _ A B). discriminate.
  - pose proof (Hp _ _ A B). discriminate.
  - pose proof (Hp _ _ A B) as [= <-]. by apply (Hq s1).
Qed.

(** Dictionary lookups are never undefined. *)
Lemma get_string_defined d k : get_string d k <> UB.
Proof.
  unfold get_string, dict_get, dict_at. destruct (dfind d k) as [v|]; [|done]. cbn [obind]. unfold any_cast.
  case_decide as E; [|done]. cbn. destruct v; cbn in E; done.
Qed.
Lemma subDict_defined d k : dict_subDict d k <> UB.
Proof. unfold dict_subDict, dict_at. destruct (dfind d k) as [v|]; [|done]. by destruct v. Qed.
Lemma checked_defined known o : checked known o = UB -> o = UB.
Proof. unfold checked. destruct o; cbn -[decide]; try done. by case_decide. Qed.

Section run.
  Context {V : Type} {VT : ValueType V} {VU : ValueUnit V} {VG : ValueTag V}.
  Context (cx : ctx V) (n : nat) (bcs : list (patch * volBC V)).
  Context (lin : string -> dict -> sparsity -> list V -> list V -> list V -> outcome (list V) -> Prop).
  Notation m := (cx_mesh cx).
  Notation p := (cx_pattern cx).

  (** What the implicit operators read fits the mesh. *)
  Definition implicit_fits (o : spatialOp V) : Prop :=
    match so_kind o with
    | DivOperator _ q _ | LaplacianOperator _ q _ => q <> n -> boundary_ok m (cx_vol cx q)
    | SurfaceIntegrate _ => True
    | SourceTerm coef _ => length (cx_coef cx coef) = nCells m
    | UserOperator _ => False
    end.
  Definition temporal_fits (o : temporalOp) : Prop :=
    coeff_ok (to_coeff o) (nCells m) /\ (to_phi o <> n -> length (cx_old cx (to_phi o)) = nCells m).
  (** The linear solver is a function: one answer per system, of its size. *)
  Definition one_answer : Prop := forall name d q values rhs x0,
    length values = sp_nnz q -> length rhs = nCells m -> length x0 = nCells m ->
    exists o, (forall r, lin name d q values rhs x0 r <-> r = o) /\ match o with Ok x => length x = nCells m | UB => False | _ => True end.
  (** It always answers. *)
  Definition always_answers : Prop := forall name d q values rhs x0 r, lin name d q values rhs x0 r -> exists x, r = Ok x.
  (** The dictionary names a known linear solver. *)
  Definition names_solver (d : dict) : Prop := exists name, get_string d "solver" = Ok name /\ name ∈ known_solver.
  (** It names the backward or forward Euler integrator. *)
  Definition names_euler (d : dict) : Prop := exists sd name, dict_subDict d "ddtSchemes" = Ok sd /\ get_string sd "type" = Ok name /\
    name ∈ ["forwardEuler"; "backwardEuler"]%string.
  Definition kept_ok (phi : volField V) (old : option (list V)) : Prop :=
    sized m (nCells m) phi /\ match old with Some l => length l = nCells m | None => True end.

  Context (Hset : setup_any cx bcs) (Hp : pattern_rows m p) (Hpl : pattern_located m p) (Hlin : one_answer) (ends : bool) (Hends : ends = true -> always_answers).

  Notation cs := (on_executor SerialExecutor cx).
  Definition system (ls : list (list V)) : Prop := exists values rhs, ls = [values; rhs] /\ sys_ok m p values rhs.

  Lemma pattern_same q : pattern_rows m q -> sp_rowPtrs q = sp_rowPtrs p /\ sp_nnz q = sp_nnz p /\ length (sp_diagOffset q) = nCells m.
  Proof using Hp.
    intros Hq. destruct (rows_same m q p Hq Hp) as (A & B & C). split; [done|]. split; [done|]. rewrite C. exact (pr_rows _ _ Hp).
  Qed.

  Definition ready (d : dict) (o : spatialOp V) : Prop := op_fits cx n o /\ implicit_fits o /\ buildable cx d o.
  Definition all_ready (d : dict) (h : heap V) (l : list nat) : Prop := forall q, q ∈ l -> exists o, h_spatial h !! q = Some o /\ ready d o.
  Definition all_ready_T (h : heap V) (l : list nat) : Prop := forall q, q ∈ l -> exists o, h_temporal h !! q = Some o /\ temporal_fits o.

  Lemma op_implicit d o phi old ls : state_any cx phi old -> ready d o -> built (so_kind o) -> system ls ->
    single ends system (fun _ => spatial_implicit (seen cs n phi old) (sp_rowPtrs p) o ls).
  Proof using Hset Hp Hpl.
    destruct Hset as (Hm & Hw & Hdc & Hmag & Hbd & Hpo).
    intros [Hsz Hlo] ([Hk Hco] & Hi & _) Hb (values & rhs & -> & Hs). destruct o as [k ty co]. unfold spatial_implicit. cbn [so_kind so_coeff] in *.
    unfold implicit_fits in Hi. cbn [so_kind] in Hi.
    destruct (HasImplicitOperator (class_of k)) eqn:Ehas; [|apply single_ret; by exists values, rhs].
    unfold concrete_implicit. cbn [so_kind so_coeff cx_exec cx_mesh cx_pattern cx_surf cx_vol cx_coef cx_dc seen on_executor].
    assert (Hbnd : forall q, (q <> n -> boundary_ok m (cx_vol cx q)) -> boundary_ok m (if decide (q = n) then phi else cx_vol cx q)).
    { intros q Hq. destruct (decide (q = n)); [|by apply Hq]. destruct Hsz as (A & B & C & D & E). by repeat split. }
    destruct k as [flux q s|gamma q b|flux|coef q|u]; cbn in Hb, Hk; try contradiction.
    - destruct s as [s|]; [|done]. destruct Hk as [Hfl Hq]. apply single_lift.
      + apply pseq_one; [apply pfor_serial_one|]. intros s'. apply pfor_serial_one.
      + eapply every_outcome_impl; [apply (C109_divergence m p Hm Hp Hpl); [done|by apply Hbnd|done|by left|done]|].
        intros a (v & r & -> & A). exists v, r. split; [done|]. apply (asm_ok _ _ _ _ _ _ _ _ _ _ _ _ _ A).
    - subst b. destruct Hk as [Hfl Hq]. apply single_lift.
      + apply pseq_one; [apply pfor_serial_one|]. intros s'. apply pfor_serial_one.
      + eapply every_outcome_impl; [apply (C109_laplacian m p Hm Hp Hpl); [done|done|done|by apply Hbnd|done|by left|done]|].
        intros a (v & r & -> & A). exists v, r. split; [done|]. apply (asm_ok _ _ _ _ _ _ _ _ _ _ _ _ _ A).
    - unfold HasImplicitOperator in Ehas. cbn in Ehas. discriminate.
    - destruct (C109_source m p Hm Hp Hpl co (cx_coef cx coef) values rhs Hco Hi Hs) as (v & r & Hr & Hok & _).
      apply (single_surely ends _ _ [v; r]); [|by exists v, r]. intros _. apply surely_lift. apply (Hr SerialExecutor).
  Qed.

  Lemma implicit_run d h phi old : state_any cx phi old -> forall l ls, all_ready d h l -> ops_built h l -> system ls ->
    single ends system (fun _ => run_implicit (seen cs n phi old) h (sp_rowPtrs p) l ls).
  Proof using Hset Hp Hpl.
    intros Hst. induction l as [|q l IH]; intros ls Hr Hb Hs; [by apply single_ret|].
    destruct (Hr q ltac:(by left)) as (o & Eo & Ho). pose proof (Hb q o ltac:(by left) Eo) as Hbo.
    assert (Hr' : all_ready d h l) by (intros q' Hq; apply Hr; by right).
    assert (Hb' : ops_built h l) by (intros q' oq Hq; apply Hb; by right).
    cbn [run_implicit]. rewrite Eo. destruct (decide (so_type o = Implicit)) as [Ht|Ht]; [|by apply IH].
    apply (single_seq ends system system); [by apply (op_implicit d)|]. intros s Hss. by apply IH.
  Qed.

  Lemma temporal_run h dt phi old : state_any cx phi old -> forall l ls, all_ready_T h l -> system ls ->
    single ends system (fun _ => run_implicit_T (seen cs n phi old) h (sp_rowPtrs p) dt l ls).
  Proof using Hset Hp Hpl.
    destruct Hset as (Hm & _).
    intros Hst. induction l as [|q l IH]; intros ls Hr Hs; [by apply single_ret|].
    destruct (Hr q ltac:(by left)) as (o & Eo & Hco & Hol).
    assert (Hr' : all_ready_T h l) by (intros q' Hq; apply Hr; by right).
    cbn [run_implicit_T]. rewrite Eo. destruct (decide (to_type o = Implicit)) as [Ht|Ht]; [|by apply IH].
    apply (single_seq ends system system); [|intros s Hss; by apply IH].
    unfold temporal_implicit. destruct (HasImplicitOperator ddt_class); [|by apply single_ret].
    destruct Hs as (values & rhs & -> & Hs). cbn [cx_exec cx_mesh cx_pattern cx_old seen on_executor].
    destruct (C109_ddt m p Hm Hp Hpl (to_coeff o) dt (if decide (to_phi o = n) then old else cx_old cx (to_phi o)) values rhs Hco) as (v & r & Hrr & Hok & _); [|done|].
    { destruct (decide (to_phi o = n)); [apply Hst|by apply Hol]. }
    apply (single_surely ends _ _ [v; r]); [|by exists v, r]. intros _. apply surely_lift. apply (Hrr SerialExecutor).
  Qed.

  Lemma fresh_pattern : single ends (pattern_rows m) (fun _ => sp_create SerialExecutor m).
  Proof using Hset.
    destruct Hset as (Hm & _). destruct (C29_rows_any_size m SerialExecutor (valid_connectivity _ Hm)) as [(q & Hq) Hall].
    destruct (Hall _ Hq) as (q' & [= <-] & Hrows). exists (Ok q). split; [|done]. intros _ r. split.
    - intros Hr. by apply (sp_create_serial_det m).
    - by intros ->.
  Qed.

  Lemma zero_system q : pattern_rows m q -> system [replicate (sp_nnz q) vzero; replicate (length (sp_diagOffset q)) vzero].
  Proof using Hp.
    intros Hq. destruct (pattern_same q Hq) as (_ & A & B). eexists _, _. split; [done|]. split; rewrite replicate_length; [done|done].
  Qed.
  Lemma named d : names_solver d -> solver_create d = Ok (default ""%string (match get_string d "solver" with Ok s => Some s | _ => None end)).
  Proof using.
    clear. intros (name & E & Hin). unfold solver_create. rewrite E. unfold checked. cbn -[decide known_solver]. by rewrite decide_True by done.
  Qed.
  Lemma solver_single d q ls x0 : pattern_rows m q -> system ls -> length x0 = nCells m -> (ends = true -> names_solver d) ->
    single ends (fun x => length x = nCells m) (fun _ => solver_solve_any lin d q ls x0).
  Proof using Hp Hlin Hends.
    intros Hq (values & rhs & -> & [Hv Hr]) Hx Hnm. unfold solver_solve_any. destruct (pattern_same q Hq) as (_ & A & _).
    destruct (solver_create d) as [name|x| |] eqn:E.
    - destruct (Hlin name d q values rhs x0) as (o & Ho & HP); [congruence|done|done|]. exists o. split; [done|].
      destruct o as [x|y| |]; try done; cbn; apply not_true_is_false; intros He;
        destruct (Hends He name d q values rhs x0 _ (proj2 (Ho _) eq_refl)) as (? & ?); done.
    - apply single_ret. cbn. apply not_true_is_false. intros He. rewrite (named d (Hnm He)) in E. done.
    - apply single_ret. cbn. apply not_true_is_false. intros He. rewrite (named d (Hnm He)) in E. done.
    - exfalso. unfold solver_create in E. by apply checked_defined, get_string_defined in E.
  Qed.

  Lemma subtract_single src ls : length src = nCells m -> system ls ->
    single ends system (fun _ => lift (subtract_source SerialExecutor m src ls)).
  Proof using Hset.
    destruct Hset as (Hm & _). intros Hl (values & rhs & -> & [Hv Hr]). unfold subtract_source.
    apply single_lift; [apply pfor_serial_one|].
    set (k := fun i => s ← src !! i; v ← cellVolumes m !! i; Some [SSub (1, i) (vscale v s)]).
    assert (Hk : forall i, i < nCells m -> k i = Some [SSub (1, i) (vscale (at0 (cellVolumes m) i) (atV src i))]).
    { intros i Hi. unfold k. rewrite (lookup_atV src i) by lia. cbn [mbind option_bind]. by rewrite (vol_lookup m Hm) by done. }
    assert (Hok : kernel_ok (shape [values; rhs]) 0 (length rhs) k).
    { intros i Hi. eexists. split; [apply Hk; lia|]. rewrite shape2. repeat constructor. simpl. apply in_shape2_1. lia. }
    pose proof (pfor_serial_loop 0 (length rhs) k [values; rhs] Hok) as Hloop.
    assert (Hall : forall r, pfor SerialExecutor 0 (length rhs) k [values; rhs] r <-> r = Some (foldl apply_stmt [values; rhs] (all_stmts 0 (length rhs) k))).
    { intros r. unfold pfor, exec_result. rewrite Hloop. split; congruence. }
    split; [|split].
    - intros H. by apply Hall in H.
    - eexists. by apply Hall.
    - intros a H. apply Hall in H. injection H as ->.
      assert (S1 : shape (foldl apply_stmt [values; rhs] (all_stmts 0 (length rhs) k)) = [length values; length rhs]) by (by rewrite shape_foldl).
      apply shape2_inv in S1 as (v' & r' & Em & L1 & L2). rewrite Em. exists v', r'. split; [done|]. split; lia.
  Qed.

  Definition stepped (s : volField V * list V) : Prop := state_any cx s.1 s.2.
  Lemma ready_fit d h l : all_ready d h l -> ops_fit cx n h l.
  Proof using. clear. intros H q Hq. destruct (H q Hq) as (o & Eo & Ho & _). eauto. Qed.

  Lemma explicit_single d h e phi old : state_any cx phi old -> all_ready d h (ex_spatial e) -> ops_built h (ex_spatial e) ->
    single ends (fun s => length s = nCells m) (fun _ => explicitOperation_n (seen cs n phi old) h e (nCells m)).
  Proof using Hset.
    intros Hst Hr Hb.
    destruct (explicit_same cx n bcs Hset (fun x => x = SerialExecutor) SerialExecutor eq_refl (or_introl (fun x Hx => Hx)) h phi old Hst (ex_spatial e)
      (replicate (nCells m) vzero) (ready_fit d h _ Hr) Hb) as (res & Hl & Hres); [by rewrite replicate_length|].
    apply (single_surely ends _ _ res); [|done]. intros _. by apply Hres.
  Qed.

  Lemma with_int_sized (phi : volField V) (x : list V) : sized m (nCells m) phi -> length x = nCells m -> sized m (nCells m) (with_int phi x).
  Proof using. clear. intros (A & B & C & D & E) Hx. by repeat split. Qed.

  Lemma backwardEuler_single d sd h e dt phi old : (ends = true -> names_solver sd) -> state_any cx phi old -> all_ready d h (ex_spatial e) -> all_ready_T h (ex_temporal e) ->
    ops_built h (ex_spatial e) -> single ends stepped (fun _ => backwardEuler_any cs n lin sd h e dt phi old).
  Proof using Hset Hp Hpl Hlin Hends.
    intros Hnm Hst Hr HrT Hb. pose proof Hst as [Hsz Hlo]. pose proof Hsz as (Hli & _).
    unfold backwardEuler_any. cbn [cx_exec cx_mesh on_executor]. rewrite Hli. apply (single_seq ends (fun s => length s = nCells m) stepped); [by apply (explicit_single d)|].
    intros _ _. apply (single_seq ends (pattern_rows m) stepped); [apply fresh_pattern|].
    intros q Hq. destruct (pattern_same q Hq) as (Eq & _). rewrite Eq.
    apply (single_seq ends system stepped); [apply (implicit_run d); [done|done|done|by apply zero_system]|].
    intros ls1 H1. apply (single_seq ends system stepped); [by apply temporal_run|].
    intros ls2 H2. apply (single_seq ends (fun x => length x = nCells m) stepped); [by apply solver_single|].
    intros x Hx. apply (single_seq ends (fun l => length l = nCells m) stepped).
    - apply (single_surely ends _ _ x); [|done]. intros _. apply fop_any_assign.
    - intros old' Ho. apply single_ret. split; [by apply with_int_sized|done].
  Qed.
  Lemma forwardEuler_single d h e dt phi old : state_any cx phi old -> all_ready d h (ex_spatial e) -> ops_built h (ex_spatial e) ->
    single ends stepped (fun dbg => forwardEuler_any dbg cs n bcs h e dt phi old).
  Proof using Hset.
    intros Hst Hr Hb.
    destruct (step_same cx n bcs Hset (fun x => x = SerialExecutor) SerialExecutor eq_refl (or_introl (fun x Hx => Hx)) h e dt phi old Hst (ready_fit d h _ Hr) Hb)
      as (phi' & old' & Hst' & H).
    apply (single_surely ends _ _ (phi', old')); [|done]. intros dbg. by apply (H dbg).
  Qed.

  (** build *)
  Context (d : dict).
  Lemma ready_built o o' : op_build cx d o = Ok o' -> ready d o -> built (so_kind o') /\ ready d o'.
  Proof using.
    clear. intros E (H1 & H2 & H3). destruct (op_built cx n d o o' E) as (B1 & B2 & B3). split; [done|]. split; [by apply B3|]. split; [|done].
    destruct o as [k t co]. unfold op_build in E. cbn [so_kind so_type so_coeff] in E. unfold implicit_fits in *. cbn [so_kind] in *.
    destruct k as [f q s|g q b|f|c q|u]; try (injection E as <-; exact H2).
    - match type of E with context [(div_build ?a ?b ?c).1] => destruct (div_build a b c).1 as [[? ?]| | |] eqn:E2 end; try done. injection E as <-. exact H2.
    - match type of E with context [(laplacian_build ?a ?b ?c).1] => destruct (laplacian_build a b c).1 as [?| | |] eqn:E2 end; try done. injection E as <-. exact H2.
  Qed.
  Lemma build_ready all : forall l done_ h, (forall q, q ∈ l -> q ∈ all) -> all_ready d h all -> ops_built h done_ ->
    exists h', buildS cx d l h = Ok (tt, h') /\ all_ready d h' all /\ ops_built h' (done_ ++ l) /\ h_temporal h' = h_temporal h.
  Proof using.
    clear. induction l as [|q l IH]; intros done_ h Hl Hr Hb.
    - exists h. rewrite app_nil_r. done.
    - destruct (Hr q (Hl q ltac:(by left))) as (o & Eo & Ho). pose proof Ho as (_ & _ & o' & Eb). destruct (ready_built o o' Eb Ho) as (B1 & B2).
      set (h1 := Heap (<[q := o']> (h_spatial h)) (h_temporal h)).
      assert (Elk : forall r oq, h_spatial h1 !! r = Some oq -> (r = q /\ oq = o') \/ (r <> q /\ h_spatial h !! r = Some oq)).
      { intros r oq. unfold h1. cbn [h_spatial]. destruct (decide (r = q)) as [->|Hne].
        - rewrite list_lookup_insert by (by apply lookup_lt_Some in Eo). intros [= <-]. by left.
        - rewrite list_lookup_insert_ne by done. by right. }
      destruct (IH (done_ ++ [q]) h1) as (h' & E' & R' & B' & T').
      + intros r Hq. apply Hl. by right.
      + intros r Hq. unfold h1. cbn [h_spatial]. destruct (decide (r = q)) as [->|Hne].
        * exists o'. rewrite list_lookup_insert by (by apply lookup_lt_Some in Eo). done.
        * rewrite list_lookup_insert_ne by done. by apply Hr.
      + intros r oq Hq Eq. destruct (Elk r oq Eq) as [[-> ->]|[Hne Eq']]; [done|].
        apply elem_of_app in Hq as [Hq|Hq%elem_of_list_singleton]; [|done]. by apply (Hb r).
      + exists h'. split; [|split; [done|split; [by rewrite <- app_assoc in B'|done]]].
        cbn [buildS]. unfold bind, readS. rewrite Eo, Eb. exact E'.
  Qed.

  (** Operators ready for the next call. *)
  Definition program_ready (h : heap V) (e : expression) : Prop := all_ready d h (ex_spatial e) /\ all_ready_T h (ex_temporal e).
  Definition kept_good (e : expression) (s : heap V * (volField V * option (list V))) : Prop :=
    program_ready s.1 e /\ kept_ok s.2.1 s.2.2.
  (** The equation has no time derivative, or a forward or backward Euler one. *)
  Definition not_runge_kutta : Prop := forall sd, dict_subDict d "ddtSchemes" = Ok sd -> get_string sd "type" <> Ok "Runge-Kutta"%string.

  (** The dictionaries name what the equation needs. *)
  Definition well_named (sol : dict) (e : expression) : Prop :=
    match ex_temporal e with
    | [] => ex_spatial e <> [] /\ names_solver sol
    | _ :: _ => names_euler d /\ names_solver d
    end.

  Lemma solve_single sol e dt h phi old : (ends = true -> well_named sol e) -> (ex_temporal e <> [] -> not_runge_kutta) -> program_ready h e -> kept_ok phi old ->
    single ends (kept_good e) (fun dbg => solve_any dbg cs n bcs lin d sol e dt h phi old).
  Proof using Hset Hp Hpl Hlin Hends.
    intros Hwn Hrk [Hr HrT] [Hsz Hold]. pose proof Hsz as (Hli & _).
    set (o := default (vf_int phi) old).
    assert (Hst : state_any cx phi o). { split; [done|]. unfold o. by destruct old. }
    destruct (build_ready (ex_spatial e) (ex_spatial e) [] h) as (h1 & E1 & R1 & B1 & T1); [done|done|intros q oq Hq; by apply elem_of_nil in Hq|].
    cbn [app] in B1.
    assert (HrT1 : all_ready_T h1 (ex_temporal e)). { intros q Hq. rewrite T1. by apply HrT. }
    assert (Hgo : single ends (kept_good e) (fun dbg => rseq (fun r' => r' = expr_build (seen cs n phi o) d e h) (fun '(_, h') =>
        match ex_temporal e with
        | _ :: _ => rseq (fun r' => r' = dict_subDict d "ddtSchemes") (fun sd => integrate_any dbg cs n bcs lin sd d h' e dt phi o)
        | [] => rseq (sp_create SerialExecutor m) (fun fresh =>
                rseq (solve_system (seen cs n phi o) h' e fresh) (fun ls =>
                rseq (solver_solve_any lin sol fresh ls (vf_int phi)) (fun x r' => r' = Ok (h', (with_int phi x, old)))))
        end))).
    { apply (single_seq ends (fun a => a = (tt, h1)) (kept_good e)).
      { apply single_ret. unfold expr_build. rewrite build_seen. by rewrite E1. }
      intros ? ->. destruct (ex_temporal e) as [|tp tl] eqn:Et.
      - apply (single_seq ends (pattern_rows m) (kept_good e)); [apply fresh_pattern|].
        intros q Hq. destruct (pattern_same q Hq) as (Eq & _). apply (single_seq ends system (kept_good e)).
        + unfold solve_system. rewrite Eq. cbn [cx_exec cx_mesh seen on_executor].
          apply (single_seq ends system system); [apply (implicit_run d); [done|done|done|by apply zero_system]|].
          intros ls1 H1. apply (single_seq ends (fun s => length s = nCells m) system); [by apply (explicit_single d)|].
          intros src Hsrc. by apply subtract_single.
        + intros ls Hls. apply (single_seq ends (fun x => length x = nCells m) (kept_good e)).
          { apply solver_single; try done. intros He. specialize (Hwn He). unfold well_named in Hwn. rewrite Et in Hwn. apply Hwn. }
          intros x Hx. apply single_ret. split; [split; [done|by rewrite Et]|]. split; [by apply with_int_sized|done].
      - apply (single_seq ends (fun sd => dict_subDict d "ddtSchemes" = Ok sd) (kept_good e)).
        { apply single_ret. pose proof (subDict_defined d "ddtSchemes").
          assert (Hwn' : ends = true -> exists sd, dict_subDict d "ddtSchemes" = Ok sd).
          { intros He. specialize (Hwn He). unfold well_named in Hwn. rewrite Et in Hwn. destruct Hwn as [(sd & ? & ? & _) _]. by exists sd. }
          destruct (dict_subDict d "ddtSchemes"); try done; cbn; apply not_true_is_false; intros He; by destruct (Hwn' He). }
        intros sd Hsd. unfold integrate_any. pose proof (Hrk ltac:(first [done|by rewrite Et]) sd Hsd) as Hty. pose proof (get_string_defined sd "type") as Hdef.
        assert (Hwn' : ends = true -> (exists name, get_string sd "type" = Ok name /\ name ∈ known_integrator) /\ names_solver d).
        { intros He. specialize (Hwn He). unfold well_named in Hwn. rewrite Et in Hwn. destruct Hwn as [(sd' & name & E & E2 & Hin) ?].
          rewrite Hsd in E. injection E as <-. split; [|done]. exists name. split; [done|].
          apply elem_of_cons in Hin as [->|Hin]; [by left|]. apply elem_of_list_singleton in Hin as ->. by right; left. }
        destruct (get_string sd "type") as [name|x| |] eqn:Eg; cbn -[decide known_integrator]; [| | |done].
        2,3: apply single_ret; cbn; apply not_true_is_false; intros He; by destruct (Hwn' He) as [(? & ? & _) _].
        destruct (decide (name ∈ known_integrator)) as [Hin|Hnin]; cbn -[decide].
        2: { apply single_ret; cbn; apply not_true_is_false; intros He. destruct (Hwn' He) as [(? & [= <-] & ?) _]. done. }
        assert (Hpack : forall s : volField V * list V, stepped s -> single ends (kept_good e) (fun _ r => r = Ok (h1, (s.1, Some s.2)))).
        { intros s [A B]. apply single_ret. split; [split; [done|by rewrite Et]|]. split; done. }
        destruct (decide (name = "forwardEuler"%string)) as [_|Hn1].
        { apply (single_seq ends stepped (kept_good e)); [by apply (forwardEuler_single d)|exact Hpack]. }
        destruct (decide (name = "backwardEuler"%string)) as [_|Hn2].
        { apply (single_seq ends stepped (kept_good e)); [|exact Hpack].
          apply (backwardEuler_single d); try done; [intros He; by apply Hwn'|by rewrite Et]. }
        unfold known_integrator in Hin. repeat (apply elem_of_cons in Hin as [->|Hin]; [done|]). by apply elem_of_nil in Hin. }
    unfold solve_any. fold o. destruct (ex_temporal e) eqn:Et, (ex_spatial e) eqn:Es; [|exact Hgo..].
    apply single_ret. cbn. apply not_true_is_false. intros He. specialize (Hwn He). unfold well_named in Hwn. rewrite Et in Hwn. by destruct Hwn.
  Qed.

  Lemma solve_loop_single sol e : (ends = true -> well_named sol e) -> (ex_temporal e <> [] -> not_runge_kutta) -> forall dts h phi old, program_ready h e -> kept_ok phi old ->
    single ends (kept_good e) (fun dbg => solve_loop_any dbg cs n bcs lin d sol e dts h phi old).
  Proof using Hset Hp Hpl Hlin Hends.
    intros Hwn Hrk. induction dts as [|dt dts IH]; intros h phi old Hr Hk; cbn [solve_loop_any]; [by apply single_ret|].
    apply (single_seq ends (kept_good e) (kept_good e)); [by apply solve_single|]. intros [h' [phi' old']] [A B]. by apply IH.
  Qed.
End run.
