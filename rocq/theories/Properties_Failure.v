(** C107: what an exception thrown by solve() leaves behind. *)
From Verif Require Import Base Dict Registry Par Exec Fields Value Kernel Mesh Coeff FV Sparsity Assembly AssemblyProps Boundary Dsl TimeInt Failure Properties_TimeInt Properties_Transport.

(** * Specification *)

(** An operator without what build() selects. *)
Definition unbuilt (o : spatialOp Qc) : spatialOp Qc :=
  SpatialOp (match so_kind o with
             | DivOperator f p _ => DivOperator f p None
             | LaplacianOperator g p _ => LaplacianOperator g p false
             | k => k
             end) (so_type o) (so_coeff o).
(** The objects agree except for the schemes selected in the operators of the expression. *)
Definition same_but_schemes (exp : expression) (h h' : heap Qc) : Prop :=
  h_temporal h' = h_temporal h /\ unbuilt <$> h_spatial h' = unbuilt <$> h_spatial h /\
  (forall p, p ∉ ex_spatial exp -> h_spatial h' !! p = h_spatial h !! p).
(** The time integrator chosen by the dictionary is one of the Euler schemes. *)
Definition euler (fvSchemes : dict) : Prop := forall d, dict_subDict fvSchemes "ddtSchemes" = Ok d ->
  get_string d "type" <> Ok "Runge-Kutta".

(** * Proofs *)
Section failure.
  Context (dbg : bool) (cx : ctx Qc) (n : nat) (bcs : list (patch * volBC Qc)).
  Context (lin : string -> dict -> sparsity -> list Qc -> list Qc -> list Qc -> outcome (list Qc) -> Prop).
  Notation F := (Fields.mkField (cx_exec cx)).
  Notation dsl_solve := (dsl_solve dbg cx n bcs lin).
  Notation dsl_solve_left := (dsl_solve_left dbg cx n lin).

  (** ** build *)
  Lemma op_build_unbuilt c d o o' : unbuilt o = unbuilt o' -> op_build (V := Qc) c d o = op_build c d o'.
  Proof.
    destruct o as [k ty co], o' as [k' ty' co']. unfold unbuilt, op_build. cbn [so_kind so_type so_coeff].
    destruct k, k'; intros E; injection E; intros; subst; done.
  Qed.
  Lemma op_build_keeps c d o o' : op_build (V := Qc) c d o = Ok o' -> unbuilt o' = unbuilt o.
  Proof.
    destruct o as [k ty co]. unfold op_build. cbn [so_kind so_type so_coeff]. destruct k.
    - destruct (div_build _ _ _).1 as [[? ?]| | |]; try done. by intros [= <-].
    - destruct (laplacian_build _ _ _).1 as [?| | |]; try done. by intros [= <-].
    - by intros [= <-].
    - by intros [= <-].
    - by intros [= <-].
  Qed.
  (** [h] and [h'] agree except for the schemes of the operators [S]. *)
  Definition agree (S : list nat) (h h' : heap Qc) : Prop :=
    h_temporal h' = h_temporal h /\ unbuilt <$> h_spatial h' = unbuilt <$> h_spatial h /\
    (forall p, p ∉ S -> h_spatial h' !! p = h_spatial h !! p).
  Lemma agree_refl S h : agree S h h. Proof. done. Qed.
  Lemma agree_trans S h1 h2 h3 : agree S h1 h2 -> agree S h2 h3 -> agree S h1 h3.
  Proof.
    intros (A1 & A2 & A3) (B1 & B2 & B3). split; [by rewrite B1|]. split; [by rewrite B2|]. intros p Hp. by rewrite B3, A3.
  Qed.
  Lemma agree_mono S S' h h' : (forall p, p ∈ S -> p ∈ S') -> agree S h h' -> agree S' h h'.
  Proof. intros HS (A1 & A2 & A3). split; [done|]. split; [done|]. intros p Hp. apply A3. intros Hq. apply Hp, HS, Hq. Qed.
  Lemma agree_write p o o' h : h_spatial h !! p = Some o -> unbuilt o' = unbuilt o ->
    agree [p] h (Heap (<[p := o']> (h_spatial h)) (h_temporal h)).
  Proof.
    intros Ho E. split; [done|]. split.
    - cbn. rewrite list_fmap_insert, E. apply list_insert_id. rewrite list_lookup_fmap, Ho. done.
    - intros q Hq. cbn. apply list_lookup_insert_ne. intros ->. apply Hq. by left.
  Qed.
  Lemma buildS_agree c d l : forall h h', buildS (V := Qc) c d l h = Ok (tt, h') -> agree l h h'.
  Proof.
    induction l as [|p l IH]; intros h h'; cbn [buildS]; [by intros [= <-]|]. unfold bind, readS.
    destruct (h_spatial h !! p) as [o|] eqn:Ho; [|done]. destruct (op_build c d o) as [o'| | |] eqn:Hb; try done.
    unfold writeS. intros H%IH. eapply agree_trans; [|eapply agree_mono; [|exact H]].
    - eapply agree_mono; [|eapply agree_write; [exact Ho|by eapply op_build_keeps]]. intros q ->%elem_of_list_singleton. by left.
    - intros q Hq. by right.
  Qed.
  Lemma agree_lookup S h h' p o : agree S h h' -> h_spatial h !! p = Some o -> exists o', h_spatial h' !! p = Some o' /\ unbuilt o' = unbuilt o.
  Proof.
    intros (_ & A & _) Ho. apply (f_equal (fun l => l !! p)) in A. rewrite !list_lookup_fmap, Ho in A.
    destruct (h_spatial h' !! p) as [o'|]; [|done]. change (Some (unbuilt o') = Some (unbuilt o)) in A. exists o'. split; [done|]. by apply (inj Some).
  Qed.
  (** Building with a dictionary gives the same operators whatever was selected before. *)
  Lemma buildS_again c d l : forall S h h', (forall p, p ∈ S -> p ∈ l) -> agree S h h' -> buildS (V := Qc) c d l h' = buildS c d l h.
  Proof.
    induction l as [|p l IH]; intros S h h' HS A.
    - cbn. unfold ret. f_equal. f_equal. destruct h as [hs ht], h' as [hs' ht']. destruct A as (A1 & A2 & A3). cbn in *. f_equal; [|done].
      apply list_eq. intros q. apply A3. intros Hq. specialize (HS q Hq). by apply elem_of_nil in HS.
    - cbn [buildS]. unfold bind, readS. destruct (h_spatial h !! p) as [o|] eqn:Ho.
      + destruct (agree_lookup S h h' p o A Ho) as (o' & Ho' & E). rewrite Ho'. rewrite (op_build_unbuilt c d o' o E).
        destruct (op_build c d o) as [o2| | |] eqn:Hb; try done. unfold writeS.
        apply (IH (filter (fun q => q <> p) S)).
        * intros q [Hq HqS]%elem_of_list_filter. specialize (HS q HqS). apply elem_of_cons in HS as [->|HS]; [done|done].
        * destruct A as (A1 & A2 & A3). split; [done|]. cbn. split; [by rewrite !list_fmap_insert, A2|].
          intros q Hq. destruct (decide (q = p)) as [->|Hne].
          -- rewrite !list_lookup_insert; [done|by eapply lookup_lt_Some|by eapply lookup_lt_Some].
          -- rewrite !list_lookup_insert_ne by done. apply A3. intros HqS. apply Hq. by apply elem_of_list_filter.
      + destruct A as (_ & A2 & _). apply (f_equal (fun l => l !! p)) in A2. rewrite !list_lookup_fmap, Ho in A2. cbn in A2.
        destruct (h_spatial h' !! p); done.
  Qed.
  Lemma buildS_throw c d l x : forall h, buildS (V := Qc) c d l h = Throw x <->
    exists l1 p l2 h' o, l = l1 ++ p :: l2 /\ buildS c d l1 h = Ok (tt, h') /\ h_spatial h' !! p = Some o /\ op_build c d o = Throw x.
  Proof.
    induction l as [|p l IH]; intros h.
    - cbn. split; [done|]. intros (l1 & p & l2 & h' & o & E & _). by destruct l1.
    - cbn [buildS]. unfold bind, readS. split.
      + destruct (h_spatial h !! p) as [o|] eqn:Ho; [|done]. destruct (op_build c d o) as [o'|y| |] eqn:Hb; try done.
        * unfold writeS. intros (l1 & q & l2 & h' & o2 & -> & H1 & H2 & H3)%IH. exists (p :: l1), q, l2, h', o2. split; [done|].
          split; [|done]. cbn [buildS]. unfold bind, readS. rewrite Ho, Hb. done.
        * intros [= <-]. exists [], p, l, h, o. done.
      + intros (l1 & q & l2 & h' & o & E & H1 & H2 & H3). destruct l1 as [|p' l1]; injection E as E1 E2; subst.
        * cbn in H1. injection H1 as <-. by rewrite H2, H3.
        * cbn [buildS] in H1. unfold bind, readS in H1. destruct (h_spatial h !! p') as [o1|]; [|done].
          destruct (op_build c d o1) as [o1'| | |]; try done. unfold writeS in *. apply IH. by exists l1, q, l2, h', o.
  Qed.

  (** ** Steps that do not throw *)
  Lemma kernel_no_throw {V L} (a : Fields.field V) (its : list (thread (list V) L)) a' x : ~ Fields.kernel_on a its a' (Throw x).
  Proof. unfold Fields.kernel_on. intros (r & _ & H). destruct r; [destruct H; done|done]. Qed.
  Lemma assign_no_throw (a b : Fields.field Qc) x : ~ fop (Fields.assign_field a b) (Throw x).
  Proof.
    intros (c & o & H & E). destruct o; try done. revert H. unfold Fields.assign_field, Fields.setField.
    destruct (exec_eqb _ _); [|by intros [_ ?]]. destruct (Nat.eqb _ _); [apply kernel_no_throw|]. intros (a1 & _ & H). revert H. apply kernel_no_throw.
  Qed.
  Lemma scale_no_throw (a : Fields.field Qc) s x : ~ fop (Fields.scale a s) (Throw x).
  Proof.
    intros (c & o & (r0 & r1 & o1 & _ & Ha & Ho) & E). destruct o; try done. destruct o1.
    - revert Ho. apply kernel_no_throw.
    - apply (assign_no_throw r0 a e0). exists r1, (Throw e0). done.
    - done.
    - done.
  Qed.
  Lemma lift_no_throw {A} (p : option A -> Prop) x : ~ lift p (Throw x).
  Proof. intros ([a|] & _ & E); done. Qed.

  Lemma rseq_throw {A B} (p : outcome A -> Prop) (k : A -> outcome B -> Prop) x :
    rseq p k (Throw x) <-> p (Throw x) \/ exists a, p (Ok a) /\ k a (Throw x).
  Proof.
    unfold rseq. split.
    - intros [(a & H1 & H2)|[(y & H & [= ->])|[[_ ?]|[_ ?]]]]; try done; [right; eauto|by left].
    - intros [H|(a & H1 & H2)]; [right; left; eauto|left; eauto].
  Qed.

  Lemma forwardEuler_throw h eqn dt st x : forwardEuler_solve dbg cx n bcs h eqn dt st (Throw x) <->
    exists st', forwardEuler_left dbg cx n h eqn dt st x st'.
  Proof.
    unfold forwardEuler_solve, forwardEuler_left. split.
    - intros [H|(s & Hs & H)]%rseq_throw; [exists st; by left|]. exists (registered st). right.
      apply rseq_throw in H as [H|(sdt & Hsdt & H)]; [by apply scale_no_throw in H|].
      apply rseq_throw in H as [H|(new & Hnew & H)]; [by exists s, sdt|].
      apply rseq_throw in H as [H|(int' & _ & H)]; [by apply assign_no_throw in H|].
      apply rseq_throw in H as [H|(phi' & _ & H)]; [by apply lift_no_throw in H|].
      apply rseq_throw in H as [H|(old' & _ & H)]; [by apply assign_no_throw in H|done].
    - intros (st' & [[H _]|(s & sdt & H1 & H2 & H3 & _)]); apply rseq_throw; [by left|]. right. exists s. split; [done|].
      apply rseq_throw. right. exists sdt. split; [done|]. apply rseq_throw. by left.
  Qed.
  Lemma solver_throw d p ls st x : solver_solve lin d p ls (vf_int (ts_phi st)) (Throw x) <-> exists st', solver_left lin d p ls st x st'.
  Proof.
    unfold solver_solve, solver_left. split.
    - destruct (solver_create d) as [name|y| |]; intros H.
      + destruct ls as [|values [|rhs [|]]]; try done. eexists. right. exists name, values, rhs, (vf_int (ts_phi st)). done.
      + injection H as ->. exists st. by left.
      + by destruct ls as [|? [|? [|]]].
      + by destruct ls as [|? [|? [|]]].
    - intros (st' & [[-> _]|(name & values & rhs & x' & -> & -> & H & _)]); [|done]. by destruct ls as [|? [|? [|]]].
  Qed.
  Lemma backwardEuler_throw d h eqn dt st x : backwardEuler_solve cx n lin d h eqn dt st (Throw x) <->
    exists st', backwardEuler_left cx n lin d h eqn dt st x st'.
  Proof.
    unfold backwardEuler_solve, backwardEuler_left, backwardEuler_system. split.
    - intros [H|(s & Hs & H)]%rseq_throw; [exists st; by left|].
      apply rseq_throw in H as [H|(fresh & Hfr & H)].
      { exists (registered st). right. exists s. split; [done|]. left. split; [|done]. apply rseq_throw. by left. }
      apply rseq_throw in H as [H|(ls1 & H1 & H)].
      { exists (registered st). right. exists s. split; [done|]. left. split; [|done]. apply rseq_throw. right. exists fresh. split; [done|]. apply rseq_throw. by left. }
      apply rseq_throw in H as [H|(ls2 & H2 & H)].
      { exists (registered st). right. exists s. split; [done|]. left. split; [|done]. apply rseq_throw. right. exists fresh. split; [done|].
        apply rseq_throw. right. exists ls1. split; [done|]. apply rseq_throw. by left. }
      apply rseq_throw in H as [H|(y & _ & H)].
      + apply (solver_throw d fresh ls2 (registered st)) in H as [st' H]. exists st'. right. exists s. split; [done|]. right. exists fresh, ls2. split; [|done].
        left. exists fresh. split; [done|]. left. exists ls1. split; [done|]. left. exists ls2. done.
      + apply rseq_throw in H as [H|(old' & _ & H)]; [by apply assign_no_throw in H|done].
    - intros (st' & [[H _]|(s & Hs & [[H _]|(fresh & ls & H & Hl)])]); apply rseq_throw; [by left|..]; right; exists s; (split; [done|]).
      + apply rseq_throw in H as [H|(fresh & Hfr & H)]; apply rseq_throw; [by left|]. right. exists fresh. split; [done|].
        apply rseq_throw in H as [H|(ls1 & H1 & H)]; apply rseq_throw; [by left|]. right. exists ls1. split; [done|].
        apply rseq_throw in H as [H|(ls2 & H2 & H)]; [|done]. apply rseq_throw. by left.
      + destruct H as [(f & Hfr & H)|[(? & _ & ?)|[[_ ?]|[_ ?]]]]; try done. destruct H as [(ls1 & H1 & H)|[(? & _ & ?)|[[_ ?]|[_ ?]]]]; try done.
        destruct H as [(ls2 & H2 & [= -> ->])|[(? & _ & ?)|[[_ ?]|[_ ?]]]]; try done.
        left. exists f. split; [done|]. left. exists ls1. split; [done|]. left. exists ls2. split; [done|]. apply rseq_throw. left.
        apply (solver_throw d f ls2 (registered st)). by exists st'.
  Qed.

  Lemma throws_ : forall fvSchemes fvSolution h exp t dt st x,
    dsl_solve fvSchemes fvSolution h exp t dt st (Throw x) <->
    exists h' st', dsl_solve_left fvSchemes fvSolution h exp t dt st x h' st'.
  Proof.
    intros fvSchemes fvSolution h exp t dt st x. unfold TimeInt.dsl_solve, Failure.dsl_solve_left.
    destruct exp as [ts ss]. unfold expr_build. cbn [ex_temporal ex_spatial].
    assert (HB : buildS (at_state cx n st) fvSchemes ss h = Throw x <-> exists h', build_left cx n fvSchemes (Expression ts ss) h st x h').
    { rewrite buildS_throw. unfold build_left. cbn [ex_spatial]. split.
      - intros (l1 & p & l2 & h' & o & H). by exists h', l1, p, l2, o.
      - intros (h' & l1 & p & l2 & o & H). by exists l1, p, l2, h', o. }
    assert (Hcase : ts = [] /\ ss = [] \/ ~ (ts = [] /\ ss = [])) by (destruct ts, ss; [left; done|right; by intros [? ?]..]).
    destruct Hcase as [[-> ->]|Hne].
    { split; [done|]. intros (h' & st' & [[(l1 & p & l2 & o & E & _) _]|(h1 & _ & H)]); [by destruct l1|done]. }
    match goal with |- (match ts with [] => match ss with _ => _ end | _ => _ end) <-> _ => idtac | _ => idtac end.
    set (K := fun '((_, h') : unit * heap Qc) => match ts with
        | _ :: _ => rseq (fun r' => r' = dict_subDict fvSchemes "ddtSchemes") (fun schemeDict =>
            timeIntegration_solve dbg cx n bcs lin schemeDict fvSchemes h' (Expression ts ss) t dt st)
        | [] => rseq (sp_create (cx_exec cx) (cx_mesh cx)) (fun fresh =>
            rseq (solve_system (at_state cx n st) h' (Expression ts ss) fresh) (fun ls =>
            rseq (solver_solve lin fvSolution fresh ls (vf_int (ts_phi st))) (fun x r' =>
              r' = Ok (h', TState (with_int (ts_phi st) x) (ts_old st)))))
        end).
    transitivity (rseq (fun r' => r' = buildS (at_state cx n st) fvSchemes ss h) K (Throw x)).
    { destruct ts, ss; try done. destruct Hne; done. }
    rewrite rseq_throw. split.
    - intros [H|([[] h1] & H & HK)]; [apply eq_sym, HB in H as [h' H]; exists h', st; by left|].
      unfold K in HK. clear K. destruct ts as [|t0 ts].
      + destruct ss as [|s0 ss]; [by destruct Hne|]. apply rseq_throw in HK as [HK|(fresh & Hfr & HK)].
        { exists h1, st. right. exists h1. split; [done|]. split; [done|]. by left. }
        apply rseq_throw in HK as [HK|(ls & Hls & HK)].
        { exists h1, st. right. exists h1. split; [done|]. split; [done|]. right. exists fresh. split; [done|]. by left. }
        apply rseq_throw in HK as [HK|(y & _ & HK)]; [|done]. apply solver_throw in HK as [st' HK].
        exists h1, st'. right. exists h1. split; [done|]. split; [done|]. right. exists fresh. split; [done|]. right. by exists ls.
      + apply rseq_throw in HK as [HK|(sd & Hsd & HK)].
        { exists h1, st. right. exists h1. split; [done|]. left. done. }
        revert HK. unfold timeIntegration_solve. destruct (checked known_integrator (get_string sd "type")) as [name|y| |] eqn:Hn; try done.
        * destruct (decide (name = "forwardEuler")) as [D1|D1]; [|destruct (decide (name = "backwardEuler")) as [D2|D2]].
          -- intros [HK|(? & _ & ?)]%rseq_throw; [|done]. apply forwardEuler_throw in HK as [st' HK].
             exists h1, st'. right. exists h1. split; [done|]. right. exists sd. split; [done|]. unfold timeIntegration_left. rewrite Hn, (decide_True (P := name = "forwardEuler")) by done. done.
          -- intros [HK|(? & _ & ?)]%rseq_throw; [|done]. apply backwardEuler_throw in HK as [st' HK].
             exists h1, st'. right. exists h1. split; [done|]. right. exists sd. split; [done|]. unfold timeIntegration_left.
             rewrite Hn, (decide_False (P := name = "forwardEuler")), (decide_True (P := name = "backwardEuler")) by done. done.
          -- intros [HK|([[? ?] ?] & _ & ?)]%rseq_throw; [|done].
             exists h1, st. right. exists h1. split; [done|]. right. exists sd. split; [done|]. unfold timeIntegration_left.
             rewrite Hn, (decide_False (P := name = "forwardEuler")), (decide_False (P := name = "backwardEuler")) by done. done.
        * intros [= ->]. exists h1, st. right. exists h1. split; [done|]. right. exists sd. split; [done|]. unfold timeIntegration_left. by rewrite Hn.
    - intros (h' & st' & [[H _]|(h1 & H & HK)]); [left; symmetry; apply HB; by exists h'|]. right. exists (tt, h1). split; [done|].
      unfold K. clear K. destruct ts as [|t0 ts].
      + destruct ss as [|s0 ss]; [by destruct Hne|]. destruct HK as [-> [[HK _]|(fresh & Hfr & HK)]]; apply rseq_throw; [by left|]. right. exists fresh. split; [done|].
        destruct HK as [[HK _]|(ls & Hls & HK)]; apply rseq_throw; [by left|]. right. exists ls. split; [done|]. apply rseq_throw. left. apply solver_throw. by exists st'.
      + destruct HK as [(HK & _)|(sd & Hsd & HK)]; apply rseq_throw; [by left|]. right. exists sd. split; [done|]. revert HK. unfold timeIntegration_left, timeIntegration_solve.
        destruct (checked known_integrator (get_string sd "type")) as [name|y| |]; try done.
        * destruct (decide (name = "forwardEuler")) as [D1|D1]; [|destruct (decide (name = "backwardEuler")) as [D2|D2]].
          -- intros [HK _]. apply rseq_throw. left. apply forwardEuler_throw. by exists st'.
          -- intros [HK _]. apply rseq_throw. left. apply backwardEuler_throw. by exists st'.
          -- intros HK. apply rseq_throw. by left.
        * by intros (-> & _).
  Qed.

  (** All the ways an exception can come about, for the Euler schemes. *)
  Lemma left_cases fvSchemes fvSolution h exp t dt st x h' st' : euler fvSchemes ->
    dsl_solve_left fvSchemes fvSolution h exp t dt st x h' st' ->
    agree (ex_spatial exp) h h' /\
    (st' = st \/ (ex_temporal exp <> [] /\ st' = registered st) \/
     exists d p ls y, solver_left lin d p ls (if decide (ex_temporal exp = []) then st else registered st) x st' /\
       lin y d p (default [] (ls !! 0)) (default [] (ls !! 1)) (vf_int (ts_phi st)) (Throw x) /\ 
       exists x', length x' = length (vf_int (ts_phi st)) /\ st' = scribbled (if decide (ex_temporal exp = []) then st else registered st) x').
  Proof.
    intros He [[(l1 & p & l2 & o & E & Hb & _) ->]|(h1 & Hb & HK)].
    { split; [|by left]. eapply agree_mono; [|by eapply buildS_agree]. intros q Hq. rewrite E, elem_of_app. by left. }
    apply buildS_agree in Hb.
    assert (HS : forall d p ls st0, vf_int (ts_phi st0) = vf_int (ts_phi st) -> solver_left lin d p ls st0 x st' -> st' = st0 \/
      exists y, lin y d p (default [] (ls !! 0)) (default [] (ls !! 1)) (vf_int (ts_phi st)) (Throw x) /\
        exists x', length x' = length (vf_int (ts_phi st)) /\ st' = scribbled st0 x').
    { intros d p ls st0 E [[_ ->]|(name & values & rhs & x' & _ & -> & Hl & Hx & ->)]; [by left|]. right. exists name. rewrite <- E. split; [done|]. by exists x'. }
    destruct exp as [ts ss]. cbn [ex_temporal ex_spatial] in *. destruct ts as [|t0 ts].
    - destruct ss as [|s0 ss]; [done|]. destruct HK as [-> HK]. split; [done|]. rewrite (decide_True (P := [] = [])) by done.
      destruct HK as [[_ ->]|(fresh & _ & [[_ ->]|(ls & _ & HK)])]; [by left|by left|].
      destruct (HS _ _ _ st eq_refl HK) as [->|(y & H1 & H2)]; [by left|]. right. right. by exists fvSolution, fresh, ls, y.
    - rewrite (decide_False (P := t0 :: ts = [])) by done.
      destruct HK as [(_ & -> & ->)|(sd & Hsd & HK)]; [split; [done|by left]|]. specialize (He sd Hsd). revert HK. unfold timeIntegration_left.
      destruct (get_string sd "type") as [name|y| |]; cbn [checked obind]; try done.
      + unfold checked. cbn [obind]. destruct (decide (name ∈ known_integrator)) as [Hk|]; [|done].
        destruct (decide (name = "forwardEuler")) as [D1|D1]; [|destruct (decide (name = "backwardEuler")) as [D2|D2]].
        * intros [HK ->]. split; [done|]. destruct HK as [[_ ->]|(s & sdt & _ & _ & _ & ->)]; [by left|]. right. by left.
        * intros [HK ->]. split; [done|]. destruct HK as [[_ ->]|(s & _ & [[_ ->]|(fresh & ls & _ & HK)])]; [by left|right; by left|].
          right. destruct (HS _ _ _ (registered st) eq_refl HK) as [->|(y & H1 & H2)]; [by left|]. right. by exists fvSchemes, fresh, ls, y.
        * exfalso. unfold known_integrator in Hk. rewrite !elem_of_cons, elem_of_nil in Hk. destruct Hk as [?|[?|[?|?]]]; try done. subst. done.
      + unfold checked. cbn [obind]. intros (_ & -> & ->). split; [done|by left].
  Qed.

  Lemma fields_kept_ : forall fvSchemes fvSolution h exp t dt st x h' st',
    euler fvSchemes -> (forall name d p a b x0 y, ~ lin name d p a b x0 (Throw y)) ->
    dsl_solve_left fvSchemes fvSolution h exp t dt st x h' st' ->
    ts_phi st' = ts_phi st /\ old_of st' = old_of st /\ same_but_schemes exp h h'.
  Proof.
    intros fvSchemes fvSolution h exp t dt st x h' st' He Hlin H. destruct (left_cases _ _ _ _ _ _ _ _ _ _ He H) as [Ha Hc].
    destruct Hc as [->|[[_ ->]|(d & p & ls & y & _ & Hl & _)]]; [done|done|]. by apply Hlin in Hl.
  Qed.

  Lemma solver_exception_ : forall fvSchemes fvSolution h exp t dt st x h' st', euler fvSchemes ->
    dsl_solve_left fvSchemes fvSolution h exp t dt st x h' st' ->
    (exists x', length x' = length (vf_int (ts_phi st)) /\ ts_phi st' = with_int (ts_phi st) x') /\
    (ex_temporal exp <> [] -> old_of st' = old_of st) /\ (ex_temporal exp = [] -> ts_old st' = ts_old st) /\ same_but_schemes exp h h'.
  Proof.
    intros fvSchemes fvSolution h exp t dt st x h' st' He H. destruct (left_cases _ _ _ _ _ _ _ _ _ _ He H) as [Ha Hc].
    destruct Hc as [->|[[Hne ->]|(d & p & ls & y & _ & _ & x' & Hx & ->)]]; [| |].
    - split; [|done]. exists (vf_int (ts_phi st)). split; [done|]. by destruct (ts_phi st).
    - split; [|done]. exists (vf_int (ts_phi st)). split; [done|]. cbn. by destruct (ts_phi st).
    - destruct (decide (ex_temporal exp = [])) as [E|E]; (split; [by exists x'|]); done.
  Qed.

  Lemma retry_ : forall fvSchemes fvSolution h exp t dt st x h' st',
    euler fvSchemes -> (forall name d p a b x0 y, ~ lin name d p a b x0 (Throw y)) ->
    dsl_solve_left fvSchemes fvSolution h exp t dt st x h' st' ->
    forall fvSchemes' fvSolution' t' dt' r,
      dsl_solve fvSchemes' fvSolution' h' exp t' dt' st' r <-> dsl_solve fvSchemes' fvSolution' h exp t' dt' st r.
  Proof.
    intros fvSchemes fvSolution h exp t dt st x h' st' He Hlin H fvSchemes' fvSolution' t' dt' r.
    destruct (left_cases _ _ _ _ _ _ _ _ _ _ He H) as [Ha Hc].
    assert (HB : forall st0, expr_build (at_state cx n st0) fvSchemes' exp h' = expr_build (at_state cx n st0) fvSchemes' exp h).
    { intros st0. unfold expr_build. by apply (buildS_again _ _ _ (ex_spatial exp)). }
    assert (E1 : dsl_solve fvSchemes' fvSolution' h' exp t' dt' st' r <-> dsl_solve fvSchemes' fvSolution' h exp t' dt' st' r).
    { unfold TimeInt.dsl_solve. by rewrite HB. }
    rewrite E1. clear E1 HB Ha H. destruct Hc as [->|[[Hne ->]|(d & p & ls & y & _ & Hl & _)]]; [done| |by apply Hlin in Hl].
    unfold TimeInt.dsl_solve. destruct exp as [[|t0 ts] ss]; [done|]. cbn [ex_temporal ex_spatial]. done.
  Qed.
End failure.

(** The two descriptions agree on which exceptions are possible. *)
Theorem C107_throws : forall dbg cx n bcs lin fvSchemes fvSolution h exp t dt st x,
  dsl_solve dbg cx n bcs lin fvSchemes fvSolution h exp t dt st (Throw x) <->
  exists h' st', dsl_solve_left dbg cx n lin fvSchemes fvSolution h exp t dt st x h' st'.
Proof. intros dbg cx n bcs lin. exact (@throws_ dbg cx n bcs lin). Qed.
Print Assumptions C107_throws.

(** If the linear solver does not throw, a call of solve() that throws leaves the
    solution field and the values of its old-time field as they were; of all
    operators only the schemes selected in those of the expression may differ. *)
Theorem C107_fields_kept : forall dbg cx n lin fvSchemes fvSolution h exp t dt st x h' st',
  euler fvSchemes -> (forall name d p a b x0 y, ~ lin name d p a b x0 (Throw y)) ->
  dsl_solve_left dbg cx n lin fvSchemes fvSolution h exp t dt st x h' st' ->
  ts_phi st' = ts_phi st /\ old_of st' = old_of st /\ same_but_schemes exp h h'.
Proof. intros dbg cx n lin. exact (@fields_kept_ dbg cx n lin). Qed.
Print Assumptions C107_fields_kept.

(** If it throws, only the cell values of the solution can be affected: they
    keep their number; boundary data stay, and with a time derivative the old-time
    field still holds the values to return to. *)
Theorem C107_solver_exception : forall dbg cx n lin fvSchemes fvSolution h exp t dt st x h' st', euler fvSchemes ->
  dsl_solve_left dbg cx n lin fvSchemes fvSolution h exp t dt st x h' st' ->
  (exists x', length x' = length (vf_int (ts_phi st)) /\ ts_phi st' = with_int (ts_phi st) x') /\
  (ex_temporal exp <> [] -> old_of st' = old_of st) /\ (ex_temporal exp = [] -> ts_old st' = ts_old st) /\ same_but_schemes exp h h'.
Proof. intros dbg cx n lin. exact (@solver_exception_ dbg cx n lin). Qed.
Print Assumptions C107_solver_exception.

(** Calling solve() again, with any dictionaries, does what it would have done
    without the failed call. *)
Theorem C107_retry : forall dbg cx n bcs lin fvSchemes fvSolution h exp t dt st x h' st',
  euler fvSchemes -> (forall name d p a b x0 y, ~ lin name d p a b x0 (Throw y)) ->
  dsl_solve_left dbg cx n lin fvSchemes fvSolution h exp t dt st x h' st' ->
  forall fvSchemes' fvSolution' t' dt' r,
    dsl_solve dbg cx n bcs lin fvSchemes' fvSolution' h' exp t' dt' st' r <-> dsl_solve dbg cx n bcs lin fvSchemes' fvSolution' h exp t' dt' st r.
Proof. intros dbg cx n bcs lin. exact (@retry_ dbg cx n bcs lin). Qed.
Print Assumptions C107_retry.


(** ddt(phi) + div(flux,phi) - laplacian(gamma,phi) with a dictionary that lacks the
    Laplacian's scheme: solve() throws after the divergence has been built. *)
Definition heapF : heap Qc :=
  Heap [SpatialOp (DivOperator 0 0 None) Implicit coeff_default; SpatialOp (LaplacianOperator 1 0 false) Implicit (coeff_scalar (- (1))%Qc)]
       [TemporalOp 0 Implicit coeff_default].
Definition exprF : expression := Expression [0] [0; 1].
Definition schemesF : dict :=
  [("ddtSchemes", ADict [("type", AString "backwardEuler")]);
   ("divSchemes", ADict [("div(flux,phi)", ATokens [AString "Gauss"; AString "upwind"] 0)]);
   ("solver", AString "Ginkgo")]%string.
Example C107_instance : euler schemesF /\ (forall name d p a b x0 y, ~ solve_exactly name d p a b x0 (Throw y)) /\
  exists x h', dsl_solve_left false cxD 0 solve_exactly schemesF [] heapF exprF 0%Qc 1%Qc (stD x0D) x h' (stD x0D) /\
    h_spatial h' !! 0 = Some (SpatialOp (DivOperator 0 0 (Some Upwind)) Implicit coeff_default) /\
    dsl_solve false cxD 0 bcsT solve_exactly schemesF [] heapF exprF 0%Qc 1%Qc (stD x0D) (Throw x).
Proof.
  split; [|split].
  - intros d E. vm_compute in E. injection E as <-. vm_compute. discriminate.
  - intros name d p a b x0 y H. unfold solve_exactly in H. by destruct H as (? & ? & _).
  - assert (H : exists x h', dsl_solve_left false cxD 0 solve_exactly schemesF [] heapF exprF 0%Qc 1%Qc (stD x0D) x h' (stD x0D) /\
      h_spatial h' !! 0 = Some (SpatialOp (DivOperator 0 0 (Some Upwind)) Implicit coeff_default)).
    { do 2 eexists. split; [left; split; [|reflexivity]|].
      - exists [0], 1, [], (SpatialOp (LaplacianOperator 1 0 false) Implicit (coeff_scalar (- (1))%Qc)). split; [reflexivity|]. split; [vm_compute; reflexivity|].
        split; [reflexivity|]. vm_compute. reflexivity.
      - reflexivity. }
    destruct H as (x & h' & H & E). exists x, h'. split; [exact H|]. split; [exact E|]. apply C107_throws. by exists h', (stD x0D).
Qed.
