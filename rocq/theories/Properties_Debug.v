(** C108: debug and release builds (NF_DEBUG) compute the same. *)
From Verif Require Import Base Dict Registry Par Exec Fields Mpi Value Kernel Mesh Coeff FV Sparsity Assembly AssemblyProps Boundary Dsl TimeInt Properties_TimeInt.

(** * Field operations *)
Definition checked_operations : list (bool -> Fields.field Qc -> Fields.field Qc -> Fields.field Qc -> outcome unit -> Prop) :=
  [Fields.plus_assign; Fields.minus_assign; Fields.mult_assign; Fields.plus; Fields.minus; Fields.mult].

Lemma validate_debug {V} (a b : Fields.field V) : validateOtherField true a b = true <-> fsize a = fsize b /\ fexec a = fexec b.
Proof.
  unfold validateOtherField. cbn [negb orb]. rewrite andb_true_iff, Nat.eqb_eq. destruct (fexec a), (fexec b); cbn; split; intros [? ?]; done.
Qed.
Lemma validate_release {V} (a b : Fields.field V) : validateOtherField false a b = true. Proof. done. Qed.

(** A debug build ends the program if the fields differ in size or executor and
    otherwise does exactly what the release build does. *)
Theorem C108_fields : forall op, op ∈ checked_operations -> forall a b c o,
  (fsize a = fsize b /\ fexec a = fexec b -> (op true a b c o <-> op false a b c o)) /\
  (~ (fsize a = fsize b /\ fexec a = fexec b) -> op true a b c o -> o = Exit).
Proof.
  intros op Hop a b c o. unfold checked_operations in Hop. rewrite !elem_of_cons, elem_of_nil in Hop.
  assert (HB : forall g (x : Fields.field Qc), fsize x = fsize a -> fexec x = fexec a ->
    (fsize a = fsize b /\ fexec a = fexec b -> (checked_binop true g x b c o <-> checked_binop false g x b c o)) /\
    (~ (fsize a = fsize b /\ fexec a = fexec b) -> checked_binop true g x b c o -> o = Exit)).
  { intros g x E1 E2. unfold checked_binop. rewrite validate_release, <- E1, <- E2. split.
    - intros H. apply validate_debug in H. by rewrite H.
    - intros H. destruct (validateOtherField true x b) eqn:E; [apply validate_debug in E; done|]. by intros [_ ?]. }
  destruct Hop as [->|[->|[->|[->|[->|[->|[]]]]]]]; try (apply HB; done).
  unfold Fields.mult. rewrite validate_release. split.
  - intros H. apply validate_debug in H. by rewrite H.
  - intros H. destruct (validateOtherField true a b) eqn:E; [apply validate_debug in E; done|]. by intros ?.
Qed.
Print Assumptions C108_fields.

(** * solve() *)
Section solve.
  Context (cx : ctx Qc) (n : nat) (bcs : list (patch * volBC Qc)).
  Context (lin : string -> dict -> sparsity -> list Qc -> list Qc -> list Qc -> outcome (list Qc) -> Prop).
  Notation F := (Fields.mkField (cx_exec cx)).

  (** Everything the debug build does, the release build does, except that the
      debug build ends the program where the release build throws DimensionMismatch. *)
  Definition same_but_mismatch {A} (debug release : outcome A -> Prop) : Prop :=
    (forall r, debug r -> release r \/ (r = Exit /\ release (Throw DimensionMismatch))) /\
    (forall r, release r -> debug r \/ (r = Throw DimensionMismatch /\ debug Exit)).

  Lemma same_refl {A} (p : outcome A -> Prop) : same_but_mismatch p p. Proof. split; auto. Qed.
  Lemma same_rseq {A B} (p q : outcome A -> Prop) (k l : A -> outcome B -> Prop) :
    same_but_mismatch p q -> (forall a, same_but_mismatch (k a) (l a)) -> same_but_mismatch (rseq p k) (rseq q l).
  Proof.
    intros [H1 H2] Hk. split; intros r.
    - intros [(a & Ha & Hr)|[(x & Hx & ->)|[[Hx ->]|[Hx ->]]]].
      + apply H1 in Ha as [Ha|[? _]]; [|done]. apply (Hk a) in Hr as [Hr|[-> Hr]]; [left; left; eauto|right; split; [done|]; left; eauto].
      + apply H1 in Hx as [Hx|[? _]]; [|done]. left. right. left. eauto.
      + apply H1 in Hx as [Hx|[_ Hx]]; [left; right; right; left; done|right]. split; [done|]. right. left. eauto.
      + apply H1 in Hx as [Hx|[? _]]; [|done]. left. right. right. right. done.
    - intros [(a & Ha & Hr)|[(x & Hx & ->)|[[Hx ->]|[Hx ->]]]].
      + apply H2 in Ha as [Ha|[? _]]; [|done]. apply (Hk a) in Hr as [Hr|[-> Hr]]; [left; left; eauto|right; split; [done|]; left; eauto].
      + apply H2 in Hx as [Hx|[[= ->] Hx]]; [left; right; left; eauto|right]. split; [done|]. right. right. left. done.
      + apply H2 in Hx as [Hx|[? _]]; [|done]. left. right. right. left. done.
      + apply H2 in Hx as [Hx|[? _]]; [|done]. left. right. right. right. done.
  Qed.
  Lemma same_minus a b : same_but_mismatch (fop (Fields.minus true (F a) (F b))) (fop (Fields.minus false (F a) (F b))).
  Proof.
    unfold Fields.minus, minus_assign, checked_binop. rewrite validate_release.
    destruct (validateOtherField true _ _) eqn:E; [apply same_refl|].
    assert (Hne : length a <> length b).
    { intros Hl. assert (Hv : validateOtherField true (F a) (F b) = true) by (apply validate_debug; done).
      change (validateOtherField true (F a) (F b) = false) in E. congruence. }
    assert (Hf : forall c o, fieldBinaryOp (F a) (F b) Qcminus c o <-> c = F a /\ o = Throw DimensionMismatch).
    { intros c o. unfold fieldBinaryOp, fsize. cbn [fdata]. by rewrite (proj2 (Nat.eqb_neq _ _) Hne). }
    split; intros r (c & o & H & ->).
    - right. destruct H as [-> ->]. split; [done|]. exists (F a), (Throw DimensionMismatch). split; [by apply Hf|done].
    - right. apply Hf in H as [-> ->]. split; [done|]. exists (F a), Exit. done.
  Qed.

  Lemma same_solve fvSchemes fvSolution h exp t dt st :
    same_but_mismatch (dsl_solve true cx n bcs lin fvSchemes fvSolution h exp t dt st) (dsl_solve false cx n bcs lin fvSchemes fvSolution h exp t dt st).
  Proof.
    unfold dsl_solve. destruct (ex_temporal exp) as [|t0 ts] eqn:Et; [destruct (ex_spatial exp) as [|s0 ss]|]; try apply same_refl.
    apply same_rseq; [apply same_refl|]. intros [[] h']. apply same_rseq; [apply same_refl|]. intros sd. unfold timeIntegration_solve.
    destruct (checked known_integrator (get_string sd "type")) as [name| | |]; try apply same_refl.
    destruct (decide (name = "forwardEuler")); [|destruct (decide (name = "backwardEuler")); apply same_refl].
    apply same_rseq; [|intros; apply same_refl]. unfold forwardEuler_solve.
    apply same_rseq; [apply same_refl|]. intros source. apply same_rseq; [apply same_refl|]. intros sdt.
    apply same_rseq; [apply same_minus|]. intros new. apply same_refl.
  Qed.
  Lemma same_loop fvSchemes fvSolution e l : forall h st,
    same_but_mismatch (time_loop true cx n bcs lin fvSchemes fvSolution e l h st) (time_loop false cx n bcs lin fvSchemes fvSolution e l h st).
  Proof.
    induction l as [|[t dt] l IH]; intros h st; [apply same_refl|]. cbn [time_loop]. apply same_rseq; [apply same_solve|]. intros [h' st']. apply IH.
  Qed.

  Lemma time_loop_ : forall fvSchemes fvSolution e l h st,
    (forall h' st', time_loop true cx n bcs lin fvSchemes fvSolution e l h st (Ok (h', st')) <->
                    time_loop false cx n bcs lin fvSchemes fvSolution e l h st (Ok (h', st'))) /\
    (forall x, time_loop true cx n bcs lin fvSchemes fvSolution e l h st (Throw x) ->
               time_loop false cx n bcs lin fvSchemes fvSolution e l h st (Throw x)) /\
    (forall x, x <> DimensionMismatch -> time_loop false cx n bcs lin fvSchemes fvSolution e l h st (Throw x) ->
               time_loop true cx n bcs lin fvSchemes fvSolution e l h st (Throw x)) /\
    (time_loop true cx n bcs lin fvSchemes fvSolution e l h st Exit ->
       time_loop false cx n bcs lin fvSchemes fvSolution e l h st Exit \/
       time_loop false cx n bcs lin fvSchemes fvSolution e l h st (Throw DimensionMismatch)) /\
    (time_loop true cx n bcs lin fvSchemes fvSolution e l h st UB <-> time_loop false cx n bcs lin fvSchemes fvSolution e l h st UB).
  Proof.
    intros fvSchemes fvSolution e l h st. destruct (same_loop fvSchemes fvSolution e l h st) as [H1 H2]. split; [|split; [|split; [|split]]].
    - intros h' st'. split; intros H; [apply H1 in H as [H|[? _]]|apply H2 in H as [H|[? _]]]; done.
    - intros x H. apply H1 in H as [H|[? _]]; done.
    - intros x Hx H. apply H2 in H as [H|[[= ->] _]]; done.
    - intros H. apply H1 in H as [H|[_ H]]; auto.
    - split; intros H; [apply H1 in H as [H|[? _]]|apply H2 in H as [H|[? _]]]; done.
  Qed.
End solve.
(** Any equation, any number of steps: the debug build can end in exactly the
    states the release build can end in; only where the release build throws
    DimensionMismatch may the debug build end the program instead. *)
Theorem C108_time_loop : forall cx n bcs lin fvSchemes fvSolution e l h st,
  (forall h' st', time_loop true cx n bcs lin fvSchemes fvSolution e l h st (Ok (h', st')) <->
                  time_loop false cx n bcs lin fvSchemes fvSolution e l h st (Ok (h', st'))) /\
  (forall x, time_loop true cx n bcs lin fvSchemes fvSolution e l h st (Throw x) ->
             time_loop false cx n bcs lin fvSchemes fvSolution e l h st (Throw x)) /\
  (forall x, x <> DimensionMismatch -> time_loop false cx n bcs lin fvSchemes fvSolution e l h st (Throw x) ->
             time_loop true cx n bcs lin fvSchemes fvSolution e l h st (Throw x)) /\
  (time_loop true cx n bcs lin fvSchemes fvSolution e l h st Exit ->
     time_loop false cx n bcs lin fvSchemes fvSolution e l h st Exit \/
     time_loop false cx n bcs lin fvSchemes fvSolution e l h st (Throw DimensionMismatch)) /\
  (time_loop true cx n bcs lin fvSchemes fvSolution e l h st UB <-> time_loop false cx n bcs lin fvSchemes fvSolution e l h st UB).
Proof. intros cx n bcs lin. exact (time_loop_ cx n bcs lin). Qed.
Print Assumptions C108_time_loop.

(** * Communication buffers *)
Section buffers.
  Context (hash : string -> N) (grow : nat -> nat).
  Notation dbg := (Platform true hash grow).
  Notation rel := (Platform false hash grow).

  (** The same buffer, except that the debug build may already have noticed that a request is complete. *)
  Definition noticed (d r : request) : Prop := d = r \/ (d = RNull /\ r = RDone).
  Definition same_buffer (d r : hbuf) : Prop :=
    h_tag d = h_tag r /\ h_name d = h_name r /\ h_tsize d = h_tsize r /\ h_data d = h_data r /\ h_off d = h_off r /\
    Forall2 noticed (h_reqs d) (h_reqs r).

  Lemma noticed_refl l : Forall2 noticed l l. Proof. induction l; constructor; [by left|done]. Qed.
  Lemma noticed_resize k l l' : Forall2 noticed l l' -> Forall2 noticed (vresize k RNull l) (vresize k RNull l').
  Proof.
    intros H. unfold vresize. rewrite (Forall2_length _ _ _ H). apply Forall2_app; [by apply Forall2_take|apply noticed_refl].
  Qed.
  Lemma noticed_test d r : Forall2 noticed d r -> (test_all d).1 = (test_all r).1 /\ Forall2 noticed (test_all d).2 (test_all r).2.
  Proof.
    induction 1 as [|x y d r Hxy Hdr [IH1 IH2]]; [split; [done|constructor]|]. cbn [test_all].
    destruct (test_all d) as [g ds], (test_all r) as [g' rs]. cbn in IH1, IH2. subst g'.
    destruct Hxy as [->|[-> ->]]; [destruct y|]; cbn; (split; [done|]); constructor; try done; by left.
  Qed.
  (** testing changes nothing but that requests are noticed *)
  Lemma test_notices l : Forall2 noticed (test_all l).2 l.
  Proof.
    induction l as [|x l IH]; [constructor|]. cbn [test_all]. destruct (test_all l) as [g ls]. cbn in IH.
    destruct x; cbn; constructor; try done; try (by left); try (by right). apply noticed_refl.
  Qed.
  Lemma noticed_trans a b c : Forall2 noticed a b -> Forall2 noticed b c -> Forall2 noticed a c.
  Proof.
    intros H. revert c. induction H as [|x y a b Hxy _ IH]; intros c Hc; inversion Hc; subst; constructor; [|by apply IH].
    unfold noticed in *. naive_solver.
  Qed.

  Lemma updateDataSize_same n f f' sz d r d' : same_buffer d r -> (forall k, f k = f' k) -> updateDataSize n f sz d = Ok d' ->
    exists r', updateDataSize n f' sz r = Ok r' /\ same_buffer d' r' .
  Proof.
    intros (E1 & E2 & E3 & E4 & E5 & E6) Hf. unfold updateDataSize. rewrite <- E1, <- E2, <- E3, <- E4, <- E5.
    assert (Ho : forall ranks s, offsets_from f sz ranks s = offsets_from f' sz ranks s).
    { induction ranks as [|k ranks IH]; intros s; cbn; [done|]. rewrite Hf. destruct (f' k); cbn; [|done..]. by rewrite IH. }
    rewrite Ho. destruct (offsets_from f' sz (seq 0 n) 0) as [p| | |]; cbn [obind]; try done.
    destruct (_ || _); [done|]. intros [= <-]. eexists. split; [reflexivity|]. done.
  Qed.
  Lemma setType_same n sz d r d' : same_buffer d r -> setType dbg n sz d = Ok d' -> exists r', setType rel n sz r = Ok r' /\ same_buffer d' r'.
  Proof.
    intros Hs. unfold setType. cbn [dassert debug andb]. cbn [dassert debug andb]. unfold dassert. cbn [debug andb].
    destruct (negb (isCommInit d)); cbn [negb obind]; [|done]. pose proof Hs as (E1 & E2 & E3 & E4 & E5 & E6). rewrite <- E3.
    destruct (h_tsize d =? sz); [intros [= <-]; by exists r|]. rewrite <- E5.
    destruct (updateDataSize n _ sz d) as [b1| | |] eqn:Hu; cbn [obind]; try done. intros [= <-].
    eapply updateDataSize_same in Hu as (b1' & Hu & Hs'); [|exact Hs|intros k; reflexivity]. rewrite Hu. cbn [obind]. eexists. split; [reflexivity|].
    destruct Hs' as (G1 & G2 & G3 & G4 & G5 & G6). done.
  Qed.
  Lemma isComplete_same d r f d' : same_buffer d r -> isComplete dbg d = Ok (f, d') -> exists r', isComplete rel r = Ok (f, r') /\ same_buffer d' r'.
  Proof.
    intros (E1 & E2 & E3 & E4 & E5 & E6). unfold isComplete, dassert. cbn [debug andb]. destruct (isCommInit d); cbn [negb obind]; [|done].
    destruct (h_reqs d) as [|x xs] eqn:Ed; [done|]. destruct (h_reqs r) as [|y ys] eqn:Er; [by inversion E6|].
    destruct (noticed_test _ _ E6) as [T1 T2]. destruct (test_all (x :: xs)) as [g rs], (test_all (y :: ys)) as [g' rs']. cbn in T1, T2. subst g'.
    intros [= <- <-]. eexists. split; [reflexivity|]. done.
  Qed.
  Lemma dassert_complete_same d r d' : same_buffer d r -> dassert_complete dbg d = Ok d' -> dassert_complete rel r = Ok r /\ same_buffer d' r.
  Proof.
    intros (E1 & E2 & E3 & E4 & E5 & E6). unfold dassert_complete. cbn [debug]. unfold isComplete, dassert. cbn [debug andb]. destruct (isCommInit d); cbn [negb obind]; [|done].
    destruct (h_reqs d) as [|x xs] eqn:Ed; [done|]. pose proof (test_notices (x :: xs)) as T. destruct (test_all (x :: xs)) as [g rs]. cbn [obind fst snd]. destruct g; [|done].
    intros [= <-]. split; [done|]. do 5 (split; [done|]). cbn [set_reqs h_reqs]. by eapply noticed_trans.
  Qed.
  Lemma post_same n d r ps d' : same_buffer d r -> post_all dbg n d = Ok (ps, d') -> exists r', post_all rel n r = Ok (ps, r') /\ same_buffer d' r'.
  Proof.
    intros Hs. unfold post_all. unfold dassert. cbn [debug andb]. destruct (isCommInit d); cbn [negb obind]; [|done].
    destruct (dassert_complete dbg d) as [d1| | |] eqn:Hc; cbn [obind]; try done. apply (dassert_complete_same d r) in Hc as [Hc Hs1]; [|done]. rewrite Hc. cbn [obind].
    destruct Hs1 as (E1 & E2 & E3 & E4 & E5 & E6).
    assert (HF : forall ranks (a a' : list post * list request) res, a.1 = a'.1 -> Forall2 noticed a.2 a'.2 -> ofold (post_rank d1) ranks a = Ok res ->
      exists res', ofold (post_rank r) ranks a' = Ok res' /\ res.1 = res'.1 /\ Forall2 noticed res.2 res'.2).
    { induction ranks as [|k ranks IH]; intros a a' res Ha1 Ha2; cbn [ofold]; [intros [= <-]; by exists a'|].
      unfold post_rank at 1 3. rewrite E5. destruct (oget (h_off r !! k)) as [lo| | |]; cbn [obind]; try done.
      destruct (oget (h_off r !! (k + 1))) as [hi| | |]; cbn [obind]; try done. destruct (hi - lo =? 0); cbn [obind]; [by apply IH|].
      destruct (a.2 !! k) as [q|] eqn:Eq; cbn [oget obind]; [|done]. destruct (Forall2_lookup_l _ _ _ _ _ Ha2 Eq) as (q' & Eq' & _). rewrite Eq'. cbn [oget obind].
      apply IH; cbn [fst snd]; [by rewrite Ha1, E1|]. apply Forall2_insert; [done|by left]. }
    destruct (ofold (post_rank d1) (seq 0 n) ([], h_reqs d1)) as [acc| | |] eqn:Ho; cbn [obind]; try done. intros [= <- <-].
    destruct (HF _ ([], h_reqs d1) ([], h_reqs r) _ eq_refl E6 Ho) as (acc' & Ho' & A1 & A2). rewrite Ho'. cbn [obind]. exists (set_reqs r acc'.2). split; [by rewrite A1|]. done.
  Qed.
  Lemma hop_same n o d r d' : same_buffer d r -> do_hop dbg n o d = Ok d' -> exists r', do_hop rel n o r = Ok r' /\ same_buffer d' r'.
  Proof.
    intros Hs. pose proof Hs as (E1 & E2 & E3 & E4 & E5 & E6). destruct o as [sz counts|sz name| |k| |]; cbn [do_hop].
    - unfold setCommRankSize, dassert. cbn [debug andb]. destruct (negb (isCommInit d)); cbn [negb obind]; [|done]. destruct (length counts =? n); cbn [negb obind]; [|done].
      intros H. eapply updateDataSize_same; [|intros; reflexivity|exact H]. unfold same_buffer. cbn. rewrite E5. do 5 (split; [done|]). by apply noticed_resize.
    - unfold initComm, dassert. cbn [debug andb]. destruct (negb (isCommInit d)); cbn [negb obind]; [|done].
      destruct (setType dbg n sz d) as [b1| | |] eqn:Ht; cbn [obind]; try done. intros [= <-]. destruct (setType_same n sz d r b1 Hs Ht) as (b1' & -> & G1 & G2 & G3 & G4 & G5 & G6).
      cbn [obind]. eexists. split; [reflexivity|]. done.
    - destruct (post_all dbg n d) as [[ps b1]| | |] eqn:Hp; cbn [obind]; try done. intros [= <-]. destruct (post_same n d r ps b1 Hs Hp) as (b1' & -> & H). cbn. eauto.
    - intros [= <-]. eexists. split; [reflexivity|]. destruct (h_reqs d !! k) as [q|] eqn:Eq.
      + destruct (Forall2_lookup_l _ _ _ _ _ E6 Eq) as (q' & Eq' & Hq). rewrite Eq'. destruct Hq as [->|[-> ->]]; [destruct q'; try done|done].
        do 5 (split; [done|]). cbn. apply Forall2_insert; [done|by left].
      + assert (h_reqs r !! k = None) as ->; [|done]. apply lookup_ge_None. rewrite <- (Forall2_length _ _ _ E6). by apply lookup_ge_None.
    - destruct (isComplete dbg d) as [[f b1]| | |] eqn:Hc; cbn [obind]; try done. intros [= <-]. destruct (isComplete_same d r f b1 Hs Hc) as (b1' & -> & H). cbn. eauto.
    - unfold h_finalise, dassert. cbn [debug andb]. destruct (isCommInit d); cbn [negb obind]; [|done].
      destruct (dassert_complete dbg d) as [d1| | |] eqn:Hc; cbn [obind]; try done. apply (dassert_complete_same d r) in Hc as [Hc (G1 & G2 & G3 & G4 & G5 & G6)]; [|done].
      rewrite Hc. cbn [obind]. destruct (forallb _ _); cbn [negb obind]; [|done]. intros [= <-]. eexists. split; [reflexivity|]. done.
  Qed.
  Lemma buffers_ : forall n ops d d' r, same_buffer d r -> run_hops dbg n ops d = Ok d' ->
    exists r', run_hops rel n ops r = Ok r' /\ same_buffer d' r'.
  Proof.
    intros n ops. unfold run_hops. induction ops as [|o ops IH]; intros d d' r Hs; cbn [ofold]; [intros [= <-]; by exists r|].
    destruct (do_hop dbg n o d) as [d1| | |] eqn:Hd; cbn [obind]; try done. intros H. destruct (hop_same n o d r d1 Hs Hd) as (r1 & -> & Hs1). cbn [obind]. by apply (IH d1).
  Qed.
End buffers.

(** Every history of calls a debug build accepts, with MPI completing requests at
    any moments, does the same in a release build: same tag, name, element size,
    data and windows; and a request one of them takes for pending is so in both. *)
Theorem C108_buffers : forall hash grow n ops d d' r, same_buffer d r -> run_hops (Platform true hash grow) n ops d = Ok d' ->
  exists r', run_hops (Platform false hash grow) n ops r = Ok r' /\ same_buffer d' r'.
Proof. intros hash grow. exact (buffers_ hash grow). Qed.
Print Assumptions C108_buffers.

(** Two fields of different sizes: the debug build ends the program, the release
    build throws. A whole exchange (sizes, init, post, completion, test, a second
    post whose debug check notices the completion, finalise) is accepted by both,
    and after the completion and the re-post's check the request lists differ: the relation is not just equality. *)
Example C108_instance :
  (let a := Fields.mkField SerialExecutor [1%Qc] in let b := Fields.mkField SerialExecutor [1%Qc; 1%Qc] in
   Fields.plus_assign true a b a Exit /\ Fields.plus_assign false a b a (Throw DimensionMismatch)) /\
  (let pl d := Platform d (fun _ => 7%N) (fun k => k) in
   let ops := [HSize 8 [1; 1]; HInit 8 "halo"; HPost; HLib 0; HLib 1; HFinalise; HInit 8 "p"; HPost; HLib 0; HLib 1] in
   exists d r, run_hops (pl true) 2 ops hbuf_default = Ok d /\ run_hops (pl false) 2 ops hbuf_default = Ok r /\
     exists d', dassert_complete (pl true) d = Ok d' /\ h_reqs d' <> h_reqs r /\ same_buffer d' r).
Proof.
  split; [by split; repeat split|]. eexists _, _. split; [vm_compute; reflexivity|]. split; [vm_compute; reflexivity|].
  eexists. split; [vm_compute; reflexivity|]. split; [done|]. do 5 (split; [reflexivity|]). repeat constructor; by right.
Qed.
Print Assumptions C108_instance.
