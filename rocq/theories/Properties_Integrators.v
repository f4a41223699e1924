(** C117: time integrators and linear solvers as objects. *)
From Verif Require Import Base Dict Registry Par Exec Fields Value Kernel Mesh Coeff FV Sparsity Assembly AssemblyProps Boundary Dsl TimeInt Ginkgo Integrators Properties_Select.

(** No operation of the history moves or destroys integrator [i] / solver [s]. *)
Definition keeps_integrator (i : nat) (ops : list tiOp) : Prop := IMove i ∉ ops /\ IFree i ∉ ops.
Definition keeps_solver (s : nat) (ops : list tiOp) : Prop := SMove s ∉ ops /\ SFree s ∉ ops.

Section frame.
  Context (cstr : nat -> string) (flt : nat -> Qc).
  Context (dbg : bool) (cx : ctx Qc) (n : nat) (bcs : list (patch * volBC Qc)).
  Context (lin : string -> dict -> sparsity -> list Qc -> list Qc -> list Qc -> outcome (list Qc) -> Prop).
  Notation tstep := (tstep cstr flt dbg cx n bcs lin).
  Notation thistory := (thistory cstr flt dbg cx n bcs lin).

  Lemma mjoin_some {A} (l : list (option A)) i (x : A) : mjoin (l !! i) = Some x <-> l !! i = Some (Some x).
  Proof. destruct (l !! i) as [[y|]|]; cbn; split; intros H; try done; by injection H as ->. Qed.
  Lemma mjoin_app {A} (l : list (option A)) (y : option A) i (x : A) : mjoin (l !! i) = Some x -> mjoin ((l ++ [y]) !! i) = Some x.
  Proof. rewrite !mjoin_some. intros H. by apply lookup_app_l_Some. Qed.
  Lemma mjoin_new {A} (l : list (option A)) (x : A) : mjoin ((l ++ [Some x]) !! length l) = Some x.
  Proof. rewrite lookup_app_r by lia. by rewrite Nat.sub_diag. Qed.
  Lemma mjoin_insert_ne {A} (l : list (option A)) (y : option A) i j (x : A) : i <> j -> mjoin (l !! i) = Some x -> mjoin (<[j := y]> l !! i) = Some x.
  Proof. intros H. by rewrite list_lookup_insert_ne. Qed.

  (** Same object, the internal state of a Runge-Kutta integrator apart. *)
  Definition same_kind (a b : strategy) : Prop :=
    match a, b with
    | ForwardEuler, ForwardEuler | BackwardEuler, BackwardEuler => True
    | RungeKutta x, RungeKutta y => is_Some x -> is_Some y
    | _, _ => False
    end.
  Definition like (x y : integrator) : Prop :=
    ti_scheme x = ti_scheme y /\ ti_solution x = ti_solution y /\
    match ti_strategy x, ti_strategy y with Some a, Some b => same_kind a b | None, None => True | _, _ => False end.
  Lemma like_refl x : like x x.
  Proof. destruct x as [s d [[| |u]|]]; unfold like; cbn; split; try done; split; try done. Qed.
  Lemma like_trans x y z : like x y -> like y z -> like x z.
  Proof.
    destruct x as [? ? [[| |x]|]], y as [? ? [[| |y]|]], z as [? ? [[| |z]|]]; unfold like; cbn;
      intros (-> & -> & H1) (-> & -> & H2); try done; (split; [done|]; split; [done|]); auto.
  Qed.

  Ltac out H := first [injection H as -> | discriminate H].
  Lemma step_integ w o w' i x : tstep w o (Ok w') -> integ_at w i = Some x -> o <> IMove i -> o <> IFree i ->
    exists y, integ_at w' i = Some y /\ like x y.
  Proof.
    intros H Hx Hm Hf.
    assert (Keep : tw_integs w' = tw_integs w -> exists y, integ_at w' i = Some y /\ like x y).
    { intros E. exists x. split; [|apply like_refl]. unfold integ_at in *. by rewrite E. }
    assert (App : forall l y, tw_integs w' = l ++ [y] -> mjoin (l !! i) = Some x -> exists y, integ_at w' i = Some y /\ like x y).
    { intros l y E Hl. exists x. split; [|apply like_refl]. unfold integ_at. rewrite E. by apply mjoin_app. }
    destruct o; cbn in H.
    - out H. by apply Keep.
    - destruct (dict_alive w k); cbn in H; out H. by apply Keep.
    - destruct (dict_alive w k); cbn in H; out H. by apply Keep.
    - unfold integ_new in H. destruct (dict_alive w scheme) as [sd|]; [|out H].
      destruct (checked known_integrator (get_string sd "type")) as [name|x0| |]; cbn -[decide] in H; out H. by eapply App.
    - unfold integ_copy in H. destruct (integ_at w i0) as [[s d [st|]]|]; try out H.
      destruct (strategy_clone dbg st) as [st'|x0| |]; cbn -[decide] in H; out H. by eapply App.
    - unfold integ_move in H. destruct (integ_at w i0) as [x0|]; try out H. eapply App; [done|]. apply mjoin_insert_ne; [congruence|done].
    - destruct (integ_at w i0); cbn in H; out H. exists x. split; [|apply like_refl]. apply mjoin_insert_ne; [congruence|done].
    - unfold integ_solve in H. destruct (integ_at w i0) as [[s d [st|]]|] eqn:Ei; try (out H).
      destruct st as [| |self].
      + apply rseq_passes in H. destruct H as (st' & _ & ->). by apply Keep.
      + destruct (dict_alive w d) as [sol|]; [|out H]. apply rseq_passes in H. destruct H as (st' & _ & ->). by apply Keep.
      + assert (H' : exists q, w' = set_integs (set_run w q.1.2 q.2) (<[i0 := Some (Integrator s d (Some (RungeKutta (Some q.1.1))))]> (tw_integs w))).
        { destruct self as [self|]; [|destruct (dict_alive w s) as [sd|]; [|out H]].
          all: unfold rseq in H; destruct H as [([[q1 q2] q3] & _ & E)|[(y & _ & E)|[[_ E]|[_ E]]]]; [|done..];
            injection E as ->; by exists (q1, q2, q3). }
        destruct H' as ([[q1 q2] q3] & ->). cbn. destruct (decide (i0 = i)) as [->|Hne].
        * rewrite Hx in Ei. injection Ei as ->. eexists. split.
          -- unfold integ_at. cbn. rewrite list_lookup_insert; [done|].
             unfold integ_at in Hx. apply mjoin_some in Hx. by apply lookup_lt_Some in Hx.
          -- unfold like. cbn. split; [done|]. split; [done|]. intros _. by eexists.
        * exists x. split; [|apply like_refl]. unfold integ_at. cbn. apply mjoin_insert_ne; [congruence|done].
    - unfold lsolver_new in H. destruct (dict_alive w k) as [d|]; [|out H].
      destruct (solver_create d) as [name|x0| |]; cbn -[decide parse] in H; try out H.
      destruct (if decide (name = "Ginkgo") then let! _ := parse cstr flt d in Ok () else Ok ()) as [u|x0| |]; cbn in H; try out H. by apply Keep.
    - unfold lsolver_copy in H. destruct (solver_at w s) as [[q|]|]; out H. by apply Keep.
    - unfold lsolver_move in H. destruct (solver_at w s) as [q|]; out H. by apply Keep.
    - destruct (solver_at w s); cbn in H; out H. by apply Keep.
    - unfold lsolver_solve in H. destruct (solver_at w s) as [[q|]|]; try out H.
      apply rseq_passes in H. destruct H as (st' & _ & ->). by apply Keep.
    - out H. by apply Keep.
  Qed.
  Lemma history_integ w ops w' i x : thistory w ops w' -> integ_at w i = Some x -> keeps_integrator i ops ->
    exists y, integ_at w' i = Some y /\ like x y.
  Proof.
    intros H. revert x. induction H as [w|w o w1 ops w2 Hs H IH]; intros x Hx [Hm Hf]; [exists x; split; [done|apply like_refl]|].
    apply not_elem_of_cons in Hm as [Hm1 Hm2]. apply not_elem_of_cons in Hf as [Hf1 Hf2].
    destruct (step_integ w o w1 i x Hs Hx) as (y & Hy & Hxy); [congruence..|].
    destruct (IH y Hy) as (z & Hz & Hyz); [by split|]. exists z. split; [done|]. by eapply like_trans.
  Qed.

  Lemma step_solver w o w' s x : tstep w o (Ok w') -> solver_at w s = Some x -> o <> SMove s -> o <> SFree s -> solver_at w' s = Some x.
  Proof.
    intros H Hx Hm Hf.
    assert (Keep : tw_solvers w' = tw_solvers w -> solver_at w' s = Some x).
    { intros E. unfold solver_at in *. by rewrite E. }
    assert (App : forall l y, tw_solvers w' = l ++ [y] -> mjoin (l !! s) = Some x -> solver_at w' s = Some x).
    { intros l y E Hl. unfold solver_at. rewrite E. by apply mjoin_app. }
    destruct o; cbn in H.
    - out H. by apply Keep.
    - destruct (dict_alive w k); cbn in H; out H. by apply Keep.
    - destruct (dict_alive w k); cbn in H; out H. by apply Keep.
    - unfold integ_new in H. destruct (dict_alive w scheme) as [sd|]; [|out H].
      destruct (checked known_integrator (get_string sd "type")) as [name|x0| |]; cbn -[decide] in H; out H. by apply Keep.
    - unfold integ_copy in H. destruct (integ_at w i) as [[s0 d [st|]]|]; try out H.
      destruct (strategy_clone dbg st) as [st'|x0| |]; cbn -[decide] in H; out H. by apply Keep.
    - unfold integ_move in H. destruct (integ_at w i) as [x0|]; try out H. by apply Keep.
    - destruct (integ_at w i); cbn in H; out H. by apply Keep.
    - unfold integ_solve in H. destruct (integ_at w i) as [[s0 d [st|]]|] eqn:Ei; try (out H).
      destruct st as [| |self].
      + apply rseq_passes in H. destruct H as (st' & _ & ->). by apply Keep.
      + destruct (dict_alive w d) as [sol|]; [|out H]. apply rseq_passes in H. destruct H as (st' & _ & ->). by apply Keep.
      + destruct self as [self|]; [|destruct (dict_alive w s0) as [sd|]; [|out H]].
        all: unfold rseq in H; destruct H as [([[q1 q2] q3] & _ & E)|[(y & _ & E)|[[_ E]|[_ E]]]]; [|done..];
            injection E as ->; by apply Keep.
    - unfold lsolver_new in H. destruct (dict_alive w k) as [d|]; [|out H].
      destruct (solver_create d) as [name|x0| |]; cbn -[decide parse] in H; try out H.
      destruct (if decide (name = "Ginkgo") then let! _ := parse cstr flt d in Ok () else Ok ()) as [u|x0| |]; cbn in H; try out H. by eapply App.
    - unfold lsolver_copy in H. destruct (solver_at w s0) as [[q|]|]; out H. by eapply App.
    - unfold lsolver_move in H. destruct (solver_at w s0) as [q|]; out H. eapply App; [done|]. apply mjoin_insert_ne; [congruence|done].
    - destruct (solver_at w s0); cbn in H; out H. apply mjoin_insert_ne; [congruence|done].
    - unfold lsolver_solve in H. destruct (solver_at w s0) as [[q|]|]; try out H.
      apply rseq_passes in H. destruct H as (st' & _ & ->). by apply Keep.
    - out H. by apply Keep.
  Qed.
  Lemma history_solver w ops w' s x : thistory w ops w' -> solver_at w s = Some x -> keeps_solver s ops -> solver_at w' s = Some x.
  Proof.
    intros H. induction H as [w|w o w1 ops w2 Hs H IH]; intros Hx [Hm Hf]; [done|].
    apply not_elem_of_cons in Hm as [Hm1 Hm2]. apply not_elem_of_cons in Hf as [Hf1 Hf2].
    apply IH; [|by split]. eapply step_solver; [done|done|congruence..].
  Qed.
End frame.

(** What a step leaves: the operators and the solution field, or how it failed. *)
Definition seen (r : outcome tiWorld) : outcome (heap Qc * tstate) :=
  match r with Ok w => Ok (tw_heap w, tw_phi w) | Throw x => Throw x | Exit => Exit | UB => UB end.
Definition observes cstr flt dbg cx n bcs lin (w : tiWorld) (o : tiOp) (q : outcome (heap Qc * tstate)) : Prop :=
  exists r, tstep cstr flt dbg cx n bcs lin w o r /\ seen r = q.

Local Lemma created w s d w1 sd name : dict_alive w s = Some sd -> dfind sd "type" = Some (AString name) ->
  integ_new w s d = Ok w1 -> name ∈ ["forwardEuler"; "backwardEuler"; "Runge-Kutta"]%string /\
  integ_at w1 (length (tw_integs w)) = Some (Integrator s d (Some
     (if decide (name = "forwardEuler"%string) then ForwardEuler else if decide (name = "backwardEuler"%string) then BackwardEuler else RungeKutta None))).
Proof.
  intros Hs Ht. unfold integ_new. rewrite Hs.
  destruct (checked known_integrator (get_string sd "type")) as [name'|x| |] eqn:E; cbn -[decide]; try done.
  intros [= <-]. apply (checked_names sd "type" ["forwardEuler"; "backwardEuler"; "Runge-Kutta"]%string) in E.
  unfold names in E. rewrite Ht in E. destruct E as [[Hk E]|[_ E]]; [|done]. injection E as ->.
  split; [done|]. apply mjoin_new.
Qed.

(** The kind of an integrator is the one named when it was created, whatever
    happens to the dictionaries and other objects later. *)
Theorem C117_forward_euler : forall cstr flt dbg cx n bcs lin w s d sd w1 ops w2 e t dt r,
  dict_alive w s = Some sd -> dfind sd "type" = Some (AString "forwardEuler") ->
  tstep cstr flt dbg cx n bcs lin w (INew s d) (Ok w1) ->
  thistory cstr flt dbg cx n bcs lin w1 ops w2 -> keeps_integrator (length (tw_integs w)) ops ->
  tstep cstr flt dbg cx n bcs lin w2 (ISolve (length (tw_integs w)) e t dt) r <->
  passes (forwardEuler_solve dbg cx n bcs (tw_heap w2) e dt (tw_phi w2)) (fun st' => set_run w2 (tw_heap w2) st') r.
Proof.
  intros cstr flt dbg cx n bcs lin w s d sd w1 ops w2 e t dt r Hs Ht Hn Hh Hk.
  destruct (created w s d w1 sd _ Hs Ht (eq_sym Hn)) as [_ Hi]. rewrite decide_True in Hi by done.
  destruct (history_integ cstr flt dbg cx n bcs lin w1 ops w2 _ _ Hh Hi Hk) as (y & Hy & Hl).
  cbn -[integ_solve]. unfold integ_solve. rewrite Hy. destruct y as [s' d' [[| |u]|]]; destruct Hl as (_ & _ & Hl); try done.
  apply rseq_passes.
Qed.
Print Assumptions C117_forward_euler.

(** Backward Euler looks its linear solver up when it steps, in the dictionary it
    was given, as that is then; if it is gone the program is wrong. *)
Theorem C117_backward_euler : forall cstr flt dbg cx n bcs lin w s d sd w1 ops w2 e t dt r,
  dict_alive w s = Some sd -> dfind sd "type" = Some (AString "backwardEuler") ->
  tstep cstr flt dbg cx n bcs lin w (INew s d) (Ok w1) ->
  thistory cstr flt dbg cx n bcs lin w1 ops w2 -> keeps_integrator (length (tw_integs w)) ops ->
  tstep cstr flt dbg cx n bcs lin w2 (ISolve (length (tw_integs w)) e t dt) r <->
  match dict_alive w2 d with
  | Some sol => passes (backwardEuler_solve cx n lin sol (tw_heap w2) e dt (tw_phi w2)) (fun st' => set_run w2 (tw_heap w2) st') r
  | None => r = UB
  end.
Proof.
  intros cstr flt dbg cx n bcs lin w s d sd w1 ops w2 e t dt r Hs Ht Hn Hh Hk.
  destruct (created w s d w1 sd _ Hs Ht (eq_sym Hn)) as [_ Hi]. rewrite decide_False, decide_True in Hi by done.
  destruct (history_integ cstr flt dbg cx n bcs lin w1 ops w2 _ _ Hh Hi Hk) as (y & Hy & Hl).
  cbn -[integ_solve]. unfold integ_solve. rewrite Hy. destruct y as [s' d' [[| |u]|]]; destruct Hl as (_ & Hd & Hl); try done.
  cbn in Hd. subst d'. destruct (dict_alive w2 d); [|done]. apply rseq_passes.
Qed.
Print Assumptions C117_backward_euler.

Local Lemma rk_ignores_dict cx n sd sd' self h e t dt st r :
  rungeKutta_solve cx n sd (Some self) h e t dt st r <-> rungeKutta_solve cx n sd' (Some self) h e t dt st r.
Proof. reflexivity. Qed.

(** After a Runge-Kutta integrator has made one step, what the dictionaries say, or
    whether they still exist, makes no difference. *)
Theorem C117_runge_kutta_later : forall cstr flt dbg cx n bcs lin w s d sd w1 ops1 w2 e0 t0 dt0 w3 ops2 w4 dicts e t dt q,
  dict_alive w s = Some sd -> dfind sd "type" = Some (AString "Runge-Kutta") ->
  tstep cstr flt dbg cx n bcs lin w (INew s d) (Ok w1) ->
  thistory cstr flt dbg cx n bcs lin w1 ops1 w2 -> keeps_integrator (length (tw_integs w)) ops1 ->
  tstep cstr flt dbg cx n bcs lin w2 (ISolve (length (tw_integs w)) e0 t0 dt0) (Ok w3) ->
  thistory cstr flt dbg cx n bcs lin w3 ops2 w4 -> keeps_integrator (length (tw_integs w)) ops2 ->
  observes cstr flt dbg cx n bcs lin w4 (ISolve (length (tw_integs w)) e t dt) q <->
  observes cstr flt dbg cx n bcs lin (set_dicts w4 dicts) (ISolve (length (tw_integs w)) e t dt) q.
Proof.
  intros cstr flt dbg cx n bcs lin w s d sd w1 ops1 w2 e0 t0 dt0 w3 ops2 w4 dicts e t dt q Hs Ht Hn Hh1 Hk1 Hstep Hh2 Hk2.
  destruct (created w s d w1 sd _ Hs Ht (eq_sym Hn)) as [_ Hi]. rewrite !decide_False in Hi by done.
  set (i := length (tw_integs w)) in *.
  destruct (history_integ cstr flt dbg cx n bcs lin w1 ops1 w2 _ _ Hh1 Hi Hk1) as (y & Hy & Hl).
  destruct y as [s' d' [[| |u]|]]; destruct Hl as (_ & _ & Hl); try done.
  assert (H3 : exists self, integ_at w3 i = Some (Integrator s' d' (Some (RungeKutta (Some self))))).
  { cbn -[integ_solve] in Hstep. unfold integ_solve in Hstep. rewrite Hy in Hstep.
    assert (H' : exists q, w3 = set_integs (set_run w2 q.1.2 q.2) (<[i := Some (Integrator s' d' (Some (RungeKutta (Some q.1.1))))]> (tw_integs w2))).
    { destruct u as [u|]; [|destruct (dict_alive w2 s') as [sd'|]; [|done]].
      all: unfold rseq in Hstep; destruct Hstep as [([[q1 q2] q3] & _ & E)|[(y & _ & E)|[[_ E]|[_ E]]]]; [|done..];
           injection E as ->; by exists (q1, q2, q3). }
    destruct H' as ([[q1 q2] q3] & ->). exists q1. unfold integ_at. cbn. rewrite list_lookup_insert; [done|].
    unfold integ_at in Hy. apply mjoin_some in Hy. by apply lookup_lt_Some in Hy. }
  destruct H3 as [self H3].
  destruct (history_integ cstr flt dbg cx n bcs lin w3 ops2 w4 _ _ Hh2 H3 Hk2) as (y & Hy4 & Hl4).
  destruct y as [s4 d4 [[| |u4]|]]; destruct Hl4 as (_ & _ & Hl4); try done. cbn in Hl4.
  destruct (Hl4 (ex_intro _ self eq_refl)) as [self4 ->].
  unfold observes. cbn -[integ_solve]. unfold integ_solve.
  change (integ_at (set_dicts w4 dicts) i) with (integ_at w4 i). rewrite Hy4. cbn [tw_heap tw_phi tw_integs set_dicts].
  split; (intros (r & H & <-)).
  all: unfold rseq in H; destruct H as [([[q1 q2] q3] & Hr & ->)|[(x & Hr & ->)|[[Hr ->]|[Hr ->]]]].
  - eexists. split; [left; exists (q1, q2, q3); split; [exact Hr|reflexivity]|done].
  - exists (Throw x). split; [right; left; by exists x|done].
  - exists Exit. split; [right; right; by left|done].
  - exists UB. split; [right; right; by right|done].
  - eexists. split; [left; exists (q1, q2, q3); split; [exact Hr|reflexivity]|done].
  - exists (Throw x). split; [right; left; by exists x|done].
  - exists Exit. split; [right; right; by left|done].
  - exists UB. split; [right; right; by right|done].
Qed.
Print Assumptions C117_runge_kutta_later.

(** A copy of an Euler integrator does what the original does, at any later time. *)
Theorem C117_copy : forall cstr flt dbg cx n bcs lin w s d sd name w1 ops1 w2,
  dict_alive w s = Some sd -> dfind sd "type" = Some (AString name) -> name <> "Runge-Kutta"%string ->
  tstep cstr flt dbg cx n bcs lin w (INew s d) (Ok w1) ->
  thistory cstr flt dbg cx n bcs lin w1 ops1 w2 -> keeps_integrator (length (tw_integs w)) ops1 ->
  exists w3, (forall r, tstep cstr flt dbg cx n bcs lin w2 (ICopy (length (tw_integs w))) r <-> r = Ok w3) /\
    seen (Ok w3) = seen (Ok w2) /\ tw_dicts w3 = tw_dicts w2 /\ tw_solvers w3 = tw_solvers w2 /\
    (forall i x, integ_at w2 i = Some x -> integ_at w3 i = Some x) /\
    forall ops2 w4 e t dt r, thistory cstr flt dbg cx n bcs lin w3 ops2 w4 ->
      keeps_integrator (length (tw_integs w)) ops2 -> keeps_integrator (length (tw_integs w2)) ops2 ->
      tstep cstr flt dbg cx n bcs lin w4 (ISolve (length (tw_integs w2)) e t dt) r <->
      tstep cstr flt dbg cx n bcs lin w4 (ISolve (length (tw_integs w)) e t dt) r.
Proof.
  intros cstr flt dbg cx n bcs lin w s d sd name w1 ops1 w2 Hs Ht Hne Hn Hh1 Hk1.
  destruct (created w s d w1 sd _ Hs Ht (eq_sym Hn)) as [Hin Hi]. set (i := length (tw_integs w)) in *.
  destruct (history_integ cstr flt dbg cx n bcs lin w1 ops1 w2 _ _ Hh1 Hi Hk1) as (y & Hy & Hl).
  assert (Hcase : exists s' d' st, y = Integrator s' d' (Some st) /\ (st = ForwardEuler \/ st = BackwardEuler)).
  { destruct y as [s' d' st]. unfold like in Hl. cbn -[decide] in Hl. destruct Hl as (_ & _ & Hl).
    destruct (decide (name = "forwardEuler"%string)) as [->|H1].
    { destruct st as [[| |u]|]; try done. exists s', d', ForwardEuler. split; [done|by left]. }
    destruct (decide (name = "backwardEuler"%string)) as [->|H2]; [|exfalso; set_solver].
    destruct st as [[| |u]|]; try done. exists s', d', BackwardEuler. split; [done|by right]. }
  destruct Hcase as (s' & d' & st & -> & Hst).
  exists (set_integs w2 (tw_integs w2 ++ [Some (Integrator s' d' (Some st))])).
  split; [|split; [done|split; [done|split; [done|split]]]].
  - intros r. cbn. unfold integ_copy. rewrite Hy. destruct Hst as [-> | ->]; done.
  - intros j x Hx. unfold integ_at. by apply mjoin_app.
  - intros ops2 w4 e t dt r Hh2 Hk2 Hk2'. set (j := length (tw_integs w2)) in *.
    destruct (history_integ cstr flt dbg cx n bcs lin _ ops2 w4 i (Integrator s' d' (Some st)) Hh2) as (a & Ha & Hla).
    { unfold integ_at. by apply mjoin_app. } { done. }
    destruct (history_integ cstr flt dbg cx n bcs lin _ ops2 w4 j (Integrator s' d' (Some st)) Hh2) as (b & Hb & Hlb).
    { unfold integ_at. cbn. apply mjoin_new. } { done. }
    cbn -[integ_solve]. unfold integ_solve. rewrite Ha, Hb.
    destruct a as [sa da [[| |ua]|]], b as [sb db [[| |ub]|]]; unfold like in Hla, Hlb; cbn in Hla, Hlb;
      destruct Hst as [-> | ->]; destruct Hla as (Ea1 & Ea2 & Ea3), Hlb as (Eb1 & Eb2 & Eb3); try done.
    by subst.
Qed.
Print Assumptions C117_copy.

(** Copying a Runge-Kutta integrator never succeeds. *)
Theorem C117_copy_runge_kutta_fails : forall cstr flt dbg cx n bcs lin w s d sd w1 ops w2 r,
  dict_alive w s = Some sd -> dfind sd "type" = Some (AString "Runge-Kutta") ->
  tstep cstr flt dbg cx n bcs lin w (INew s d) (Ok w1) ->
  thistory cstr flt dbg cx n bcs lin w1 ops w2 -> keeps_integrator (length (tw_integs w)) ops ->
  tstep cstr flt dbg cx n bcs lin w2 (ICopy (length (tw_integs w))) r <-> r = if dbg then Exit else UB.
Proof.
  intros cstr flt dbg cx n bcs lin w s d sd w1 ops w2 r Hs Ht Hn Hh Hk.
  destruct (created w s d w1 sd _ Hs Ht (eq_sym Hn)) as [_ Hi]. rewrite !decide_False in Hi by done.
  destruct (history_integ cstr flt dbg cx n bcs lin w1 ops w2 _ _ Hh Hi Hk) as (y & Hy & Hl).
  cbn. unfold integ_copy. rewrite Hy. destruct y as [s' d' [[| |u]|]]; destruct Hl as (_ & _ & Hl); try done.
  cbn. by destruct dbg.
Qed.
Print Assumptions C117_copy_runge_kutta_fails.

(** Moving hands everything over; the object moved from cannot be used again. *)
Theorem C117_move : forall cstr flt dbg cx n bcs lin w i x, integ_at w i = Some x ->
  exists w1, (forall r, tstep cstr flt dbg cx n bcs lin w (IMove i) r <-> r = Ok w1) /\ integ_at w1 (length (tw_integs w)) = Some x /\
    (forall e t dt q, observes cstr flt dbg cx n bcs lin w1 (ISolve (length (tw_integs w)) e t dt) q <->
                      observes cstr flt dbg cx n bcs lin w (ISolve i e t dt) q) /\
    (forall j y, j <> i -> integ_at w j = Some y -> integ_at w1 j = Some y) /\
    forall ops w2 e t dt r, thistory cstr flt dbg cx n bcs lin w1 ops w2 -> keeps_integrator i ops ->
      (tstep cstr flt dbg cx n bcs lin w2 (ISolve i e t dt) r <-> r = UB) /\ (tstep cstr flt dbg cx n bcs lin w2 (ICopy i) r <-> r = UB).
Proof.
  intros cstr flt dbg cx n bcs lin w i x Hx.
  exists (set_integs w (<[i := Some (Integrator (ti_scheme x) (ti_solution x) None)]> (tw_integs w) ++ [Some x])).
  assert (Hnew : integ_at (set_integs w (<[i := Some (Integrator (ti_scheme x) (ti_solution x) None)]> (tw_integs w) ++ [Some x])) (length (tw_integs w)) = Some x).
  { unfold integ_at. cbn. rewrite lookup_app_r by (rewrite insert_length; lia). by rewrite insert_length, Nat.sub_diag. }
  split; [intros r; cbn; unfold integ_move; by rewrite Hx|]. split; [exact Hnew|]. split; [|split].
  - intros e t dt q. unfold observes. cbn -[integ_solve integ_at]. unfold integ_solve. rewrite Hnew, Hx.
    destruct x as [s d [[| |self]|]].
    + cbn [tw_heap tw_phi set_integs]. split; (intros (r & H & <-)); destruct H as [(st' & Hr & ->)|[(y & Hr & ->)|[[Hr ->]|[Hr ->]]]].
      all: try (eexists; split; [left; exists st'; split; [exact Hr|reflexivity]|done]).
      all: try (exists (Throw y); split; [right; left; by exists y|done]).
      all: try (exists Exit; split; [right; right; by left|done]).
      all: try (exists UB; split; [right; right; by right|done]).
    + cbn [tw_heap tw_phi set_integs]. change (dict_alive (set_integs w ?l) d) with (dict_alive w d).
      destruct (dict_alive w d) as [sol|]; [|done].
      split; (intros (r & H & <-)); destruct H as [(st' & Hr & ->)|[(y & Hr & ->)|[[Hr ->]|[Hr ->]]]].
      all: try (eexists; split; [left; exists st'; split; [exact Hr|reflexivity]|done]).
      all: try (exists (Throw y); split; [right; left; by exists y|done]).
      all: try (exists Exit; split; [right; right; by left|done]).
      all: try (exists UB; split; [right; right; by right|done]).
    + cbn [tw_heap tw_phi set_integs tw_integs]. change (dict_alive (set_integs w ?l) s) with (dict_alive w s).
      destruct self as [self|]; [|destruct (dict_alive w s) as [sol|]; [|done]].
      all: split; (intros (r & H & <-)); unfold rseq in H; destruct H as [([[q1 q2] q3] & Hr & ->)|[(y & Hr & ->)|[[Hr ->]|[Hr ->]]]].
      all: try (eexists; split; [left; exists (q1, q2, q3); split; [exact Hr|reflexivity]|done]).
      all: try (exists (Throw y); split; [right; left; by exists y|done]).
      all: try (exists Exit; split; [right; right; by left|done]).
      all: try (exists UB; split; [right; right; by right|done]).
    + done.
  - intros j y Hj Hy. unfold integ_at. cbn. apply mjoin_app. by apply mjoin_insert_ne.
  - intros ops w2 e t dt r Hh Hk.
    destruct (history_integ cstr flt dbg cx n bcs lin _ ops w2 i (Integrator (ti_scheme x) (ti_solution x) None) Hh) as (y & Hy & Hl); [|done|].
    { unfold integ_at. cbn. apply mjoin_app. rewrite list_lookup_insert; [done|].
      unfold integ_at in Hx. apply mjoin_some in Hx. by apply lookup_lt_Some in Hx. }
    destruct y as [s' d' [st|]]; unfold like in Hl; cbn in Hl; [by destruct Hl as (_ & _ & ?)|].
    cbn -[integ_solve integ_copy]. unfold integ_solve, integ_copy. by rewrite Hy.
Qed.
Print Assumptions C117_move.

(** A linear solver keeps the settings it was created with. *)
Theorem C117_solver : forall cstr flt dbg cx n bcs lin w k d w1 ops w2 p values rhs r,
  dict_alive w k = Some d -> tstep cstr flt dbg cx n bcs lin w (SNew k) (Ok w1) ->
  thistory cstr flt dbg cx n bcs lin w1 ops w2 -> keeps_solver (length (tw_solvers w)) ops ->
  exists name, names d "solver" ["Ginkgo"; "Petsc"]%string (Ok name) /\
  (tstep cstr flt dbg cx n bcs lin w2 (SSolve (length (tw_solvers w)) p values rhs) r <->
   passes (lin name d p values rhs (vf_int (ts_phi (tw_phi w2))))
     (fun y => set_run w2 (tw_heap w2) (TState (with_int (ts_phi (tw_phi w2)) y) (ts_old (tw_phi w2)))) r).
Proof.
  intros cstr flt dbg cx n bcs lin w k d w1 ops w2 p values rhs r Hd Hn Hh Hk. cbn in Hn. unfold lsolver_new in Hn. rewrite Hd in Hn.
  destruct (solver_create d) as [name|x| |] eqn:E; cbn -[decide parse] in Hn; try done.
  destruct (if decide (name = "Ginkgo"%string) then let! _ := parse cstr flt d in Ok () else Ok ()) as [u|x| |]; cbn in Hn; try done.
  injection Hn as ->. exists name. split; [by apply C116_linear_solver|].
  assert (Hs : solver_at w2 (length (tw_solvers w)) = Some (Some (SolverInstance name d))).
  { eapply (history_solver cstr flt dbg cx n bcs lin _ ops w2); [done| |done]. unfold solver_at. cbn. apply mjoin_new. }
  cbn -[lsolver_solve]. unfold lsolver_solve. rewrite Hs. cbn [sv_name sv_dict]. apply rseq_passes.
Qed.
Print Assumptions C117_solver.

(** A linear solver can be copied, but no copy can ever be used: not to solve, not
    to copy again. *)
Theorem C117_solver_copy_unusable : forall cstr flt dbg cx n bcs lin w s w1 ops w2 p values rhs r,
  tstep cstr flt dbg cx n bcs lin w (SCopy s) (Ok w1) ->
  thistory cstr flt dbg cx n bcs lin w1 ops w2 -> keeps_solver (length (tw_solvers w)) ops ->
  (tstep cstr flt dbg cx n bcs lin w2 (SSolve (length (tw_solvers w)) p values rhs) r <-> r = UB) /\
  (tstep cstr flt dbg cx n bcs lin w2 (SCopy (length (tw_solvers w))) r <-> r = UB).
Proof.
  intros cstr flt dbg cx n bcs lin w s w1 ops w2 p values rhs r Hn Hh Hk. cbn in Hn. unfold lsolver_copy in Hn.
  destruct (solver_at w s) as [[x|]|]; try done. injection Hn as ->.
  assert (Hs : solver_at w2 (length (tw_solvers w)) = Some None).
  { eapply (history_solver cstr flt dbg cx n bcs lin _ ops w2); [done| |done]. unfold solver_at. cbn. apply mjoin_new. }
  cbn -[lsolver_solve lsolver_copy]. unfold lsolver_solve, lsolver_copy. by rewrite Hs.
Qed.
Print Assumptions C117_solver_copy_unusable.

(** Creating: the names decide (as C116 for solve()). *)
Theorem C117_create : forall cstr flt dbg cx n bcs lin w s d sd r, dict_alive w s = Some sd ->
  tstep cstr flt dbg cx n bcs lin w (INew s d) r ->
  match r with
  | Ok w1 => exists name x, names sd "type" ["forwardEuler"; "backwardEuler"; "Runge-Kutta"]%string (Ok name) /\
               tw_integs w1 = tw_integs w ++ [Some x] /\ tw_dicts w1 = tw_dicts w /\ tw_solvers w1 = tw_solvers w /\ seen r = seen (Ok w)
  | Throw x => names sd "type" ["forwardEuler"; "backwardEuler"; "Runge-Kutta"]%string (Throw x)
  | Exit => names sd "type" ["forwardEuler"; "backwardEuler"; "Runge-Kutta"]%string Exit
  | UB => False
  end.
Proof.
  intros cstr flt dbg cx n bcs lin w s d sd r Hs ->. cbn -[decide]. unfold integ_new. rewrite Hs.
  destruct (checked known_integrator (get_string sd "type")) as [name|x| |] eqn:E; cbn -[decide].
  all: apply (checked_names sd "type" ["forwardEuler"; "backwardEuler"; "Runge-Kutta"]%string) in E; try done.
  - exists name. eexists. split; [done|]. split; [done|]. done.
  - unfold names in E. destruct (dfind sd "type") as [[]|]; try done. by destruct E as [[_ ?]|[_ ?]].
Qed.
Print Assumptions C117_create.

(** Concretely: an Euler integrator made from a dictionary, copied, the dictionary
    then changed to name another integrator; and a Runge-Kutta integrator. *)
Example C117_instance : forall cstr flt cx n bcs lin h st,
  let d := [("type", AString "forwardEuler"); ("solver", AString "Petsc")]%string in
  let d' := [("type", AString "Runge-Kutta")]%string in
  let fe := Integrator 0 0 (Some ForwardEuler) in
  let w := TiWorld [Some d'] [Some fe; Some fe; Some (Integrator 0 0 (Some (RungeKutta None)))]
             [Some (Some (SolverInstance "Petsc" d)); Some None] h st in
  thistory cstr flt false cx n bcs lin (TiWorld [] [] [] h st) [DNew d; INew 0 0; SNew 0; ICopy 0; SCopy 0; DSet 0 d'; INew 0 0] w /\
  tstep cstr flt false cx n bcs lin w (ICopy 2) UB /\ tstep cstr flt false cx n bcs lin w (SSolve 1 (Sparsity.Sparsity [] [] [] [] []) [] []) UB.
Proof.
  intros cstr flt cx n bcs lin h st d d' fe w. split; [|split; reflexivity].
  repeat (eapply th_cons; [reflexivity|]). apply th_nil.
Qed.
