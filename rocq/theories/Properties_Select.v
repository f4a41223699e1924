(** C116: the names in the dictionaries select the linear solver and the time
    integrator, and the operators see the current contents of the solution field. *)
From Verif Require Import Base Dict Registry Par Exec Fields Value Kernel Mesh Coeff FV Sparsity Assembly Boundary Dsl TimeInt.

(** What a call reports that hands the result of [p] on, changed by [f]. *)
Definition passes {A B} (p : outcome A -> Prop) (f : A -> B) (r : outcome B) : Prop :=
  match r with
  | Ok b => exists a, p (Ok a) /\ b = f a
  | Throw x => p (Throw x)
  | Exit => p Exit
  | UB => p UB
  end.

Lemma rseq_passes {A B} (p : outcome A -> Prop) (f : A -> B) r :
  rseq p (fun a r' => r' = Ok (f a)) r <-> passes p f r.
Proof.
  unfold rseq, passes. destruct r as [b|x| |]; split.
  - intros [(a & H & E)|[(y & _ & E)|[[_ E]|[_ E]]]]; [|done..]. injection E as ->. by exists a.
  - intros (a & H & ->). left. by exists a.
  - intros [(a & _ & E)|[(y & H & E)|[[_ E]|[_ E]]]]; [done| |done..]. by injection E as ->.
  - intros H. right. left. by exists x.
  - intros [(a & _ & E)|[(y & _ & E)|[[H _]|[_ E]]]]; done.
  - intros H. right. right. left. done.
  - intros [(a & _ & E)|[(y & _ & E)|[[_ E]|[H _]]]]; done.
  - intros H. right. right. right. done.
Qed.
Lemma rseq_ok {A B} (a : A) (k : A -> outcome B -> Prop) r : rseq (fun r' => r' = Ok a) k r <-> k a r.
Proof.
  unfold rseq. split.
  - intros [(a' & E & H)|[(x & E & _)|[[E _]|[E _]]]]; [|done..]. by injection E as ->.
  - intros H. left. by exists a.
Qed.
Lemma rseq_err {A B} (o : outcome A) (k : A -> outcome B -> Prop) r (o' : outcome B) :
  match o with Ok _ => False | Throw x => o' = Throw x | Exit => o' = Exit | UB => o' = UB end ->
  rseq (fun r' => r' = o) k r <-> r = o'.
Proof.
  unfold rseq. destruct o as [a|x| |]; [done|intros ->..]; split.
  all: try (intros [(a' & E & H)|[(y & E & ->)|[[E ->]|[E ->]]]]; try done; by injection E as ->).
  - intros ->. right. left. by exists x.
  - intros ->. right. right. by left.
  - intros ->. right. right. by right.
Qed.

(** An entry of a dictionary that should name one of several classes. *)
Definition names (d : dict) (key : string) (known : list string) (r : outcome string) : Prop :=
  match dfind d key with
  | None => r = Throw OutOfRange
  | Some (AString s) => (s ∈ known /\ r = Ok s) \/ (s ∉ known /\ r = Exit)
  | Some _ => r = Throw BadAnyCast
  end.
Lemma checked_names d key known r : checked known (get_string d key) = r <-> names d key known r.
Proof.
  unfold checked, names, get_string, dict_get, dict_at. destruct (dfind d key) as [a|]; cbn -[decide]; [|by split; intros; subst].
  destruct a as [|s| | | | | | | |]; cbn -[decide]; try (by split; intros; subst).
  replace (any_cast TString (AString s)) with (Ok (AString s)) by reflexivity. cbn -[decide]. destruct (decide (s ∈ known)) as [H|H].
  - split; [intros <-; by left|]. by intros [[_ ->]|[? _]].
  - split; [intros <-; by right|]. by intros [[? _]|[_ ->]].
Qed.

(** The linear solver is the one named by the key "solver": Ginkgo or Petsc; any
    other name ends the program, a missing key or another type throws. *)
Theorem C116_linear_solver : forall d r, solver_create d = r <-> names d "solver" ["Ginkgo"; "Petsc"]%string r.
Proof. intros d r. apply checked_names. Qed.
Print Assumptions C116_linear_solver.

(** ... and it is called, with its dictionary, on the system and the values given. *)
Theorem C116_solver_called : forall lin d p values rhs x0 r, solver_solve lin d p [values; rhs] x0 r <->
  (exists name, names d "solver" ["Ginkgo"; "Petsc"]%string (Ok name) /\ lin name d p values rhs x0 r) \/
  (exists x, names d "solver" ["Ginkgo"; "Petsc"]%string (Throw x) /\ r = Throw x) \/
  (names d "solver" ["Ginkgo"; "Petsc"]%string Exit /\ r = Exit).
Proof.
  intros lin d p values rhs x0 r. unfold solver_solve.
  assert (Hn : forall q, names d "solver" ["Ginkgo"; "Petsc"]%string q <-> solver_create d = q) by (intros q; symmetry; apply C116_linear_solver).
  destruct (solver_create d) as [name|x| |] eqn:E.
  - split; [intros H; left; exists name; split; [by apply Hn|exact H]|].
    intros [(n' & H & Hl)|[(x & H & _)|[H _]]]; apply Hn in H; try done. by injection H as ->.
  - split; [intros ->; right; left; exists x; split; [by apply Hn|done]|].
    intros [(n' & H & Hl)|[(y & H & ->)|[H _]]]; apply Hn in H; try done. by injection H as ->.
  - split; [intros ->; right; right; split; [by apply Hn|done]|].
    intros [(n' & H & Hl)|[(y & H & ->)|[H ->]]]; apply Hn in H; done.
  - exfalso. apply C116_linear_solver in E. unfold names in E. destruct (dfind d "solver") as [[]|]; try done. by destruct E as [[_ ?]|[_ ?]].
Qed.
Print Assumptions C116_solver_called.

(** With a time derivative in the equation: the operators are built, then the
    integrator named under ddtSchemes, type makes the step.  The linear solver of
    backward Euler is looked up in fvSchemes (C86). *)
Theorem C116_integrator : forall dbg cx n bcs lin fvSchemes fvSolution (h h' : heap Qc) e u t dt st schemes r,
  ex_temporal e <> [] -> expr_build (at_state cx n st) fvSchemes e h = Ok (u, h') -> dict_subDict fvSchemes "ddtSchemes" = Ok schemes ->
  let solve := dsl_solve dbg cx n bcs lin fvSchemes fvSolution h e t dt st r in
  (dfind schemes "type" = Some (AString "forwardEuler") -> solve <-> passes (forwardEuler_solve dbg cx n bcs h' e dt st) (fun st' => (h', st')) r) /\
  (dfind schemes "type" = Some (AString "backwardEuler") -> solve <-> passes (backwardEuler_solve cx n lin fvSchemes h' e dt st) (fun st' => (h', st')) r) /\
  (dfind schemes "type" = Some (AString "Runge-Kutta") -> solve <-> passes (rungeKutta_solve cx n schemes None h' e t dt st) (fun x => (x.1.2, x.2)) r) /\
  (forall s, dfind schemes "type" = Some (AString s) -> s ∉ ["forwardEuler"; "backwardEuler"; "Runge-Kutta"]%string -> solve <-> r = Exit) /\
  (dfind schemes "type" = None -> solve <-> r = Throw OutOfRange) /\
  (forall a, dfind schemes "type" = Some a -> (forall s, a <> AString s) -> solve <-> r = Throw BadAnyCast).
Proof.
  intros dbg cx n bcs lin fvSchemes fvSolution h h' e u t dt st schemes r Ht Hb Hd solve.
  assert (E : solve <-> timeIntegration_solve dbg cx n bcs lin schemes fvSchemes h' e t dt st r).
  { unfold solve, dsl_solve. rewrite Hb, Hd. destruct (ex_temporal e) as [|q qs]; [done|].
    transitivity (rseq (fun r' => r' = Ok (u, h')) (fun '(_, h'0) => rseq (fun r' => r' = Ok schemes)
       (fun schemeDict => timeIntegration_solve dbg cx n bcs lin schemeDict fvSchemes h'0 e t dt st)) r); [destruct (ex_spatial e); done|].
    rewrite rseq_ok. exact (rseq_ok schemes (fun d => timeIntegration_solve dbg cx n bcs lin d fvSchemes h' e t dt st) r). }
  assert (Hc : forall q, names schemes "type" ["forwardEuler"; "backwardEuler"; "Runge-Kutta"]%string q -> checked known_integrator (get_string schemes "type") = q).
  { intros q H. by apply checked_names. }
  assert (Hknown : forall s, dfind schemes "type" = Some (AString s) -> s ∈ ["forwardEuler"; "backwardEuler"; "Runge-Kutta"]%string ->
    checked known_integrator (get_string schemes "type") = Ok s).
  { intros s Hs Hin. apply Hc. unfold names. rewrite Hs. by left. }
  split; [|split; [|split; [|split; [|split]]]].
  - intros Hs. rewrite E. unfold timeIntegration_solve. rewrite (Hknown _ Hs) by set_solver. cbn [decide]. apply rseq_passes.
  - intros Hs. rewrite E. unfold timeIntegration_solve. rewrite (Hknown _ Hs) by set_solver.
    rewrite decide_False by done. rewrite decide_True by done. apply rseq_passes.
  - intros Hs. rewrite E. unfold timeIntegration_solve. rewrite (Hknown _ Hs) by set_solver.
    rewrite decide_False by done. rewrite decide_False by done. rewrite <- rseq_passes. unfold rseq.
    split; (intros [(a & H1 & H2)|H]; [left; exists a; split; [exact H1|]; destruct a as [[? ?] ?]; exact H2|right; exact H]).
  - intros s Hs Hn. rewrite E. unfold timeIntegration_solve. rewrite (Hc Exit); [done|]. unfold names. rewrite Hs. by right.
  - intros Hs. rewrite E. unfold timeIntegration_solve. rewrite (Hc (Throw OutOfRange)); [done|]. unfold names. by rewrite Hs.
  - intros a Hs Hn. rewrite E. unfold timeIntegration_solve. rewrite (Hc (Throw BadAnyCast)); [done|]. unfold names. rewrite Hs.
    destruct a as [|s0| | | | | | | |]; try done. by destruct (Hn s0).
Qed.
Print Assumptions C116_integrator.

(** What can go wrong before: a scheme that cannot be built, or ddtSchemes
    missing or not a dictionary. *)
Theorem C116_missing_entries : forall dbg cx n bcs lin fvSchemes fvSolution (h : heap Qc) e t dt st r,
  ex_temporal e <> [] ->
  let solve := dsl_solve dbg cx n bcs lin fvSchemes fvSolution h e t dt st r in
  (forall x, expr_build (at_state cx n st) fvSchemes e h = Throw x -> solve <-> r = Throw x) /\
  (expr_build (at_state cx n st) fvSchemes e h = Exit -> solve <-> r = Exit) /\
  (forall u h', expr_build (at_state cx n st) fvSchemes e h = Ok (u, h') ->
     (dfind fvSchemes "ddtSchemes" = None -> solve <-> r = Throw OutOfRange) /\
     (forall a, dfind fvSchemes "ddtSchemes" = Some a -> (forall d, a <> ADict d) -> solve <-> r = Throw BadAnyCast)).
Proof.
  intros dbg cx n bcs lin fvSchemes fvSolution h e t dt st r Ht solve.
  assert (E : solve <-> rseq (fun r' => r' = expr_build (at_state cx n st) fvSchemes e h) (fun '(_, h'0) => rseq (fun r' => r' = dict_subDict fvSchemes "ddtSchemes")
       (fun schemeDict => timeIntegration_solve dbg cx n bcs lin schemeDict fvSchemes h'0 e t dt st)) r).
  { unfold solve, dsl_solve. destruct (ex_temporal e) as [|q qs]; [done|]. destruct (ex_spatial e); done. }
  split; [|split].
  - intros x Hx. rewrite E, Hx. by apply rseq_err.
  - intros Hx. rewrite E, Hx. by apply rseq_err.
  - intros u h' Hb. assert (E2 : forall o, dict_subDict fvSchemes "ddtSchemes" = Throw o -> solve <-> r = Throw o).
    { intros o Ho. rewrite E, Hb, Ho. rewrite rseq_ok. exact (rseq_err (Throw o) _ r (Throw o) eq_refl). }
    split.
    + intros H0. assert (Hs : dict_subDict fvSchemes "ddtSchemes" = Throw OutOfRange) by (unfold dict_subDict, dict_at; by rewrite H0).
      by apply E2.
    + intros a H0 Ha. assert (Hs : dict_subDict fvSchemes "ddtSchemes" = Throw BadAnyCast).
      { unfold dict_subDict, dict_at. rewrite H0. destruct a as [| | | | |d0| | | |]; try done. by destruct (Ha d0). }
      by apply E2.
Qed.
Print Assumptions C116_missing_entries.

(** Operators read the solution field's current contents and old-time values, and
    every other field as it is. *)
Theorem C116_fields_seen : forall cx n st,
  cx_vol (at_state cx n st) n = ts_phi st /\ cx_old (at_state cx n st) n = old_of st /\
  (forall i, i <> n -> cx_vol (at_state cx n st) i = cx_vol cx i /\ cx_old (at_state cx n st) i = cx_old cx i) /\
  cx_surf (at_state cx n st) = cx_surf cx /\ cx_surfV (at_state cx n st) = cx_surfV cx /\ cx_coef (at_state cx n st) = cx_coef cx /\
  cx_mesh (at_state cx n st) = cx_mesh cx /\ cx_exec (at_state cx n st) = cx_exec cx /\ cx_pattern (at_state cx n st) = cx_pattern cx /\
  cx_weights (at_state cx n st) = cx_weights cx /\ cx_dc (at_state cx n st) = cx_dc cx.
Proof.
  intros cx n st. cbn. rewrite !(decide_True (P := n = n)) by done. split; [done|]. split; [done|]. split; [|done].
  intros i Hi. by rewrite !decide_False.
Qed.
Print Assumptions C116_fields_seen.

Example C116_instance : solver_create [("solver", AString "Petsc")] = Ok "Petsc"%string /\
  solver_create [("solver", AString "petsc")] = Exit /\ solver_create [("solver", ABool true)] = Throw BadAnyCast.
Proof. split; [|split]; apply C116_linear_solver; unfold names; cbn; [left|right|]; set_solver. Qed.
