(** C123: the MPI session of a process - when programs with MPIInit and
    MPIEnvironment objects are correct, and what environments report. *)
From Verif Require Import Base MpiSession.
Local Open Scope nat_scope.

(** Specification.  The rules of C++: objects are copied and destroyed only while
    they live; [inits] and [envs] say which of the objects made so far do. *)
Fixpoint lifetimes (inits envs : list bool) (ops : list mpiOp) : Prop :=
  match ops with
  | [] => True
  | MInit :: ops' => lifetimes (inits ++ [true]) envs ops'
  | MCopy k :: ops' => inits !! k = Some true /\ lifetimes (inits ++ [true]) envs ops'
  | MFree k :: ops' => inits !! k = Some true /\ lifetimes (<[k := false]> inits) envs ops'
  | EOpen _ :: ops' => lifetimes inits (envs ++ [true]) ops'
  | ECopy k :: ops' => envs !! k = Some true /\ lifetimes inits (envs ++ [true]) ops'
  | EFree k :: ops' => envs !! k = Some true /\ lifetimes inits (<[k := false]> envs) ops'
  | EError :: ops' => lifetimes inits envs ops'
  end.
(** Operations that call no MPI function. *)
Definition quiet (op : mpiOp) : Prop :=
  match op with MCopy _ | ECopy _ | EFree _ => True | _ => False end.
(** Operations correct inside the session. *)
Definition inside (pl : mpiPlatform) (op : mpiOp) : Prop :=
  quiet op \/ exists c, op = EOpen (Some c) /\ is_Some (pl_group pl c).
Definition is_init (op : mpiOp) : bool := match op with MInit => true | _ => false end.
Definition is_copy (op : mpiOp) : bool := match op with MCopy _ => true | _ => false end.
Definition is_free (op : mpiOp) : bool := match op with MFree _ => true | _ => false end.
Definition count (p : mpiOp -> bool) (ops : list mpiOp) : nat := length (List.filter p ops).

Local Lemma run_cons pl op ops s : mpi_run pl (op :: ops) s = (let! s' := mpi_step pl op s in mpi_run pl ops s').
Proof. done. Qed.
Local Lemma run_app pl ops ops' s : mpi_run pl (ops ++ ops') s = (let! s' := mpi_run pl ops s in mpi_run pl ops' s').
Proof.
  revert s. induction ops as [|op ops IH]; intros s; [done|]. cbn [app mpi_run].
  destruct (mpi_step pl op s); cbn; auto.
Qed.
Definition living (s : mpiState) : list bool := map (fun o => match o with Some _ => true | None => false end) (ms_envs s).
Local Lemma living_live s k : living s !! k = Some true <-> is_Some (mjoin (ms_envs s !! k)).
Proof.
  unfold living. change (map ?f ?l) with (f <$> l). rewrite list_lookup_fmap.
  destruct (ms_envs s !! k) as [[e|]|]; cbn; split; intros H; try done; try (by destruct H); by eexists.
Qed.
Local Lemma living_app s p i e : living (MpiState p i (ms_envs s ++ [Some e])) = living s ++ [true].
Proof. unfold living. cbn. by rewrite map_app. Qed.
Local Lemma living_ins s p i k : living (MpiState p i (<[k := None]> (ms_envs s))) = <[k := false]> (living s).
Proof. unfold living. cbn. change (map ?f ?l) with (f <$> l). by rewrite list_fmap_insert. Qed.

(** After the session. *)
Local Lemma run_after pl ops s : ms_phase s = Finalised -> lifetimes (ms_inits s) (living s) ops ->
  (exists s', mpi_run pl ops s = Ok s') <-> Forall quiet ops.
Proof.
  revert s. induction ops as [|op ops IH]; intros s Hp Hl; [split; [done|by eexists]|].
  rewrite run_cons, Forall_cons. destruct op as [|k|k|[c|]|k|k|]; cbn [mpi_step quiet].
  - rewrite Hp. cbn. split; [by intros [? ?]|by intros [[] _]].
  - destruct Hl as [Hk Hl]. rewrite Hk. cbn. rewrite IH; cbn; [|done|done]. by split; [|intros []].
  - destruct Hl as [Hk Hl]. rewrite Hk, Hp. cbn. split; [by intros [? ?]|by intros [[] _]].
  - rewrite Hp. cbn. split; [by intros [? ?]|by intros [[] _]].
  - unfold error_exit. rewrite Hp. cbn. split; [by intros [? ?]|by intros [[] _]].
  - destruct Hl as [Hk Hl]. apply living_live in Hk as [e ->]. cbn. rewrite IH; [|done|by rewrite living_app].
    by split; [|intros []].
  - destruct Hl as [Hk Hl]. apply living_live in Hk as [e ->]. cbn. rewrite IH; [|done|by rewrite living_ins].
    by split; [|intros []].
  - unfold error_exit. rewrite Hp. cbn. split; [by intros [? ?]|by intros [[] _]].
Qed.
(** Inside it. *)
Definition session pl (body : list mpiOp) : Prop :=
  Forall (inside pl) body \/
  exists b k post, body = b ++ MFree k :: post /\ Forall (inside pl) b /\ Forall quiet post.
Local Lemma session_cons pl op body : inside pl op -> (forall k, op <> MFree k) ->
  session pl (op :: body) <-> session pl body.
Proof.
  intros Hi Hn. split.
  - intros [H|(b & k & post & E & Hb & Hp)].
    + left. by apply Forall_cons in H as [_ H].
    + destruct b as [|x b]; cbn in E; [injection E as -> _; by destruct (Hn k)|]. injection E as <- ->.
      right. apply Forall_cons in Hb as [_ Hb]. by exists b, k, post.
  - intros [H|(b & k & post & -> & Hb & Hp)].
    + left. by constructor.
    + right. exists (op :: b), k, post. split; [done|]. split; [by constructor|done].
Qed.
Local Lemma session_bad pl op body : ~ inside pl op -> (forall k, op <> MFree k) -> ~ session pl (op :: body).
Proof.
  intros Hi Hn [H|(b & k & post & E & Hb & _)].
  - by apply Forall_cons in H as [H _].
  - destruct b as [|x b]; cbn in E; [injection E as -> _; by destruct (Hn k)|]. injection E as <- _.
    by apply Forall_cons in Hb as [Hb _].
Qed.
Local Lemma run_inside pl ops s : ms_phase s = Active -> lifetimes (ms_inits s) (living s) ops ->
  (exists s', mpi_run pl ops s = Ok s') <-> session pl ops.
Proof.
  revert s. induction ops as [|op ops IH]; intros s Hp Hl; [split; [by left|by eexists]|].
  rewrite run_cons. destruct op as [|k|k|[c|]|k|k|]; cbn [mpi_step].
  - rewrite Hp. cbn. split; [by intros [? ?]|]. intros H. exfalso. revert H. apply session_bad; [|done].
    intros [[]|(c & [=] & _)].
  - destruct Hl as [Hk Hl]. rewrite Hk. cbn. rewrite IH; cbn; [|done|done]. symmetry. apply session_cons; [by left|done].
  - destruct Hl as [Hk Hl]. rewrite Hk, Hp. cbn. rewrite run_after; cbn; [|done|done]. split.
    + intros H. right. exists [], k, ops. by repeat split.
    + intros [H|(b & k' & post & E & Hb & Hpost)].
      * apply Forall_cons in H as [[[]|(c & [=] & _)] _].
      * destruct b as [|x b]; cbn in E; [by injection E as _ ->|]. injection E as <- _.
        apply Forall_cons in Hb as [[[]|(c & [=] & _)] _].
  - rewrite Hp. destruct (pl_group pl c) as [[r n]|] eqn:Eg; cbn.
    + rewrite IH; [|done|by rewrite living_app]. symmetry. apply session_cons; [|done]. right. exists c. by rewrite Eg.
    + split; [by intros [? ?]|]. intros H. exfalso. revert H. apply session_bad; [|done].
      intros [[]|(c' & [= <-] & H)]. rewrite Eg in H. by destruct H.
  - unfold error_exit. rewrite Hp. cbn. split; [by intros [? ?]|]. intros H. exfalso. revert H. apply session_bad; [|done].
    intros [[]|(c' & [=] & H)].
  - destruct Hl as [Hk Hl]. apply living_live in Hk as [e ->]. cbn. rewrite IH; [|done|by rewrite living_app].
    symmetry. apply session_cons; [by left|done].
  - destruct Hl as [Hk Hl]. apply living_live in Hk as [e ->]. cbn. rewrite IH; [|done|by rewrite living_ins].
    symmetry. apply session_cons; [by left|done].
  - unfold error_exit. rewrite Hp. cbn. split; [by intros [? ?]|]. intros H. exfalso. revert H. apply session_bad; [|done].
    intros [[]|(c' & [=] & H)].
Qed.

(** A program that uses its objects while they live is correct exactly if it makes
    no MPI call at all, or initialises MPI once, with the thread support the build
    asks for, opens environments on communicators it is part of between that and the
    only destruction of an MPIInit object, and otherwise only copies and destroys
    environments (or copies the MPIInit object without destroying the copies). *)
Theorem C123_correct_programs : forall pl ops, lifetimes [] [] ops ->
  (exists s, mpi_run pl ops mpi_start = Ok s) <->
  Forall quiet ops \/
  (pl_require pl = true -> pl_multiple pl = true) /\
  exists pre body, ops = pre ++ MInit :: body /\ Forall quiet pre /\
    (Forall (inside pl) body \/
     exists b k post, body = b ++ MFree k :: post /\ Forall (inside pl) b /\ Forall quiet post).
Proof.
  intros pl ops. assert (H : forall s, ms_phase s = Before -> lifetimes (ms_inits s) (living s) ops ->
    (exists s', mpi_run pl ops s = Ok s') <-> Forall quiet ops \/
      (pl_require pl = true -> pl_multiple pl = true) /\ exists pre body, ops = pre ++ MInit :: body /\ Forall quiet pre /\ session pl body);
    [|intros Hl; exact (H mpi_start eq_refl Hl)].
  assert (Hq : forall op l, quiet op -> (Forall quiet (op :: l) \/ (pl_require pl = true -> pl_multiple pl = true) /\
      exists pre body, op :: l = pre ++ MInit :: body /\ Forall quiet pre /\ session pl body) <->
    (Forall quiet l \/ (pl_require pl = true -> pl_multiple pl = true) /\
      exists pre body, l = pre ++ MInit :: body /\ Forall quiet pre /\ session pl body)).
  { intros op l Hop. rewrite Forall_cons. split.
    - intros [[_ H]|(Ht & pre & body & E & Hp & Hb)]; [by left|]. right. split; [done|].
      destruct pre as [|x pre]; cbn in E; [injection E as -> _; done|]. injection E as <- ->.
      apply Forall_cons in Hp as [_ Hp]. by exists pre, body.
    - intros [H|(Ht & pre & body & -> & Hp & Hb)]; [by left|]. right. split; [done|].
      exists (op :: pre), body. split; [done|]. split; [by constructor|done]. }
  assert (Hbad : forall op l, ~ quiet op -> op <> MInit -> ~ (Forall quiet (op :: l) \/ (pl_require pl = true -> pl_multiple pl = true) /\
      exists pre body, op :: l = pre ++ MInit :: body /\ Forall quiet pre /\ session pl body)).
  { intros op l Hop Hn [H|(_ & pre & body & E & Hp & _)].
    - by apply Forall_cons in H as [H _].
    - destruct pre as [|x pre]; cbn in E; [by injection E as -> _|]. injection E as <- _. by apply Forall_cons in Hp as [Hp _]. }
  induction ops as [|op ops IH]; intros s Hp Hl; [split; [by left; constructor|by eexists]|].
  rewrite run_cons. destruct op as [|k|k|[c|]|k|k|]; cbn [mpi_step].
  - rewrite Hp. cbn in Hl.
    assert (Hs : (exists s', mpi_run pl ops (MpiState Active (ms_inits s ++ [true]) (ms_envs s)) = Ok s') <-> session pl ops)
      by (apply run_inside; done).
    destruct (pl_require pl && negb (pl_multiple pl)) eqn:Et; cbn.
    + split; [by intros [? ?]|]. intros [H|(Ht & _)]; [by apply Forall_cons in H as [[] _]|].
      destruct (pl_require pl), (pl_multiple pl); try done. by specialize (Ht eq_refl).
    + rewrite Hs. split.
      * intros H. right. split; [by destruct (pl_require pl), (pl_multiple pl)|]. exists [], ops. by repeat split.
      * intros [H|(Ht & pre & body & E & Hpre & Hb)]; [by apply Forall_cons in H as [[] _]|].
        destruct pre as [|x pre]; cbn in E; [by injection E as ->|]. injection E as <- _. by apply Forall_cons in Hpre as [[] _].
  - destruct Hl as [Hk Hl]. rewrite Hk. cbn. rewrite Hq by done. by apply IH.
  - destruct Hl as [Hk Hl]. rewrite Hk, Hp. cbn. split; [by intros [? ?]|]. intros H. exfalso. revert H. by apply Hbad; [intros []|].
  - rewrite Hp. cbn. split; [by intros [? ?]|]. intros H. exfalso. revert H. by apply Hbad; [intros []|].
  - unfold error_exit. rewrite Hp. cbn. split; [by intros [? ?]|]. intros H. exfalso. revert H. by apply Hbad; [intros []|].
  - destruct Hl as [Hk Hl]. apply living_live in Hk as [e ->]. cbn. rewrite Hq by done. apply IH; [done|by rewrite living_app].
  - destruct Hl as [Hk Hl]. apply living_live in Hk as [e ->]. cbn. rewrite Hq by done. apply IH; [done|by rewrite living_ins].
  - unfold error_exit. rewrite Hp. cbn. split; [by intros [? ?]|]. intros H. exfalso. revert H. by apply Hbad; [intros []|].
Qed.
Print Assumptions C123_correct_programs.

(** The phase after a history is told by what it contains. *)
Local Lemma step_phase pl op s s' : mpi_step pl op s = Ok s' ->
  match op with
  | MInit => ms_phase s = Before /\ ms_phase s' = Active
  | MFree _ => ms_phase s = Active /\ ms_phase s' = Finalised
  | _ => ms_phase s' = ms_phase s
  end.
Proof.
  intros H. destruct op as [|k|k|[c|]|k|k|]; cbn in H.
  - destruct (ms_phase s); try discriminate. destruct (_ && _); cbn in H; [discriminate|]. by injection H as <-.
  - destruct (ms_inits s !! k) as [[]|]; try discriminate. by injection H as <-.
  - destruct (ms_inits s !! k) as [[]|]; try discriminate. destruct (ms_phase s); try discriminate. by injection H as <-.
  - destruct (ms_phase s) eqn:E; try discriminate. destruct (pl_group pl c) as [[]|]; try discriminate. by injection H as <-.
  - unfold error_exit in H. destruct (ms_phase s); discriminate.
  - destruct (mjoin (ms_envs s !! k)); try discriminate. by injection H as <-.
  - destruct (mjoin (ms_envs s !! k)); try discriminate. by injection H as <-.
  - unfold error_exit in H. destruct (ms_phase s); discriminate.
Qed.
Local Lemma run_phase pl ops s s' : mpi_run pl ops s = Ok s' ->
  match ms_phase s with
  | Before => count is_init ops = 0 /\ count is_free ops = 0 /\ ms_phase s' = Before \/
              count is_init ops = 1 /\ count is_free ops = 0 /\ ms_phase s' = Active \/
              count is_init ops = 1 /\ count is_free ops = 1 /\ ms_phase s' = Finalised
  | Active => count is_init ops = 0 /\ (count is_free ops = 0 /\ ms_phase s' = Active \/ count is_free ops = 1 /\ ms_phase s' = Finalised)
  | Finalised => count is_init ops = 0 /\ count is_free ops = 0 /\ ms_phase s' = Finalised
  end.
Proof.
  revert s. induction ops as [|op ops IH]; intros s H.
  - injection H as <-. destruct (ms_phase s); [left|split; [|left]|]; done.
  - rewrite run_cons in H. destruct (mpi_step pl op s) as [s1| | |] eqn:E; try discriminate. cbn in H.
    pose proof (step_phase _ _ _ _ E) as Hph. specialize (IH _ H). unfold count in *.
    destruct op as [|k|k|c|k|k|]; cbn [List.filter is_init is_free length] in *;
      try (rewrite Hph in IH; done).
    + destruct Hph as [-> Hph]. rewrite Hph in IH. lia || (destruct IH as [-> [[-> ->]|[-> ->]]]; [right; left; done|right; right; done]).
    + destruct Hph as [-> Hph]. rewrite Hph in IH. destruct IH as (-> & -> & ->). split; [done|]. right. done.
Qed.

(** MPI is initialised at most once and finalised at most once in any program that
    goes well; so one in which every MPIInit object is destroyed - every program
    that returns from main - has at most one and never copies it. *)
Theorem C123_one_session : forall pl ops s, mpi_run pl ops mpi_start = Ok s ->
  count is_init ops <= 1 /\ count is_free ops <= 1 /\
  (Forall (fun alive => alive = false) (ms_inits s) -> count is_init ops + count is_copy ops <= 1).
Proof.
  intros pl ops s H. pose proof (run_phase _ _ _ _ H) as Hp. cbn in Hp. split; [lia|]. split; [lia|].
  assert (Hf : count is_free ops <= 1) by lia. clear Hp.
  assert (Hlen : forall ops s s', mpi_run pl ops s = Ok s' ->
    length (List.filter (fun b => b) (ms_inits s)) + count is_init ops + count is_copy ops
    = length (List.filter (fun b => b) (ms_inits s')) + count is_free ops).
  { clear. intros ops. induction ops as [|op ops IH]; intros s s' H; [injection H as <-; cbn; lia|].
    rewrite run_cons in H. destruct (mpi_step pl op s) as [s1| | |] eqn:E; try discriminate. cbn in H. specialize (IH _ _ H).
    unfold count in *. destruct op as [|k|k|[c|]|k|k|]; cbn in E; cbn [List.filter is_init is_free is_copy length] in *.
    - destruct (ms_phase s); try discriminate. destruct (_ && _); cbn in E; [discriminate|]. injection E as <-. cbn in IH.
      rewrite List.filter_app, app_length in IH. cbn in IH. lia.
    - destruct (ms_inits s !! k) as [[]|]; try discriminate. injection E as <-. cbn in IH.
      rewrite List.filter_app, app_length in IH. cbn in IH. lia.
    - destruct (ms_inits s !! k) as [[]|] eqn:Ek; try discriminate. destruct (ms_phase s); try discriminate. injection E as <-. cbn in IH.
      assert (length (List.filter (fun b => b) (ms_inits s)) = S (length (List.filter (fun b => b) (<[k := false]> (ms_inits s))))) as ->; [|lia].
      apply take_drop_middle in Ek as Es. rewrite <- Es at 1.
      rewrite insert_take_drop by (by apply lookup_lt_Some in Ek). rewrite !List.filter_app, !app_length. cbn. lia.
    - destruct (ms_phase s) eqn:Ep; try discriminate. destruct (pl_group pl c) as [[]|]; try discriminate. injection E as <-. cbn in IH. lia.
    - unfold error_exit in E. destruct (ms_phase s); discriminate.
    - destruct (mjoin (ms_envs s !! k)); try discriminate. injection E as <-. cbn in IH. lia.
    - destruct (mjoin (ms_envs s !! k)); try discriminate. injection E as <-. cbn in IH. lia.
    - unfold error_exit in E. destruct (ms_phase s); discriminate. }
  intros Ha. specialize (Hlen _ _ _ H). cbn in Hlen.
  assert (List.filter (fun b => b) (ms_inits s) = []) as Hn.
  { clear -Ha. induction Ha as [|b l -> _ IH]; [done|]. exact IH. }
  rewrite Hn in Hlen. cbn in Hlen. lia.
Qed.
Print Assumptions C123_one_session.

(** Outside the session opening an environment, on whatever communicator, and
    reporting any error are undefined behaviour; inside, an error ends the program
    and so does an environment on the null communicator. *)
Theorem C123_errors : forall pl ops s, mpi_run pl ops mpi_start = Ok s ->
  (count is_init ops = 0 \/ count is_free ops = 1 ->
    mpi_step pl EError s = UB /\ forall comm, mpi_step pl (EOpen comm) s = UB) /\
  (count is_init ops = 1 /\ count is_free ops = 0 ->
    mpi_step pl EError s = Exit /\ mpi_step pl (EOpen None) s = Exit).
Proof.
  intros pl ops s H. pose proof (run_phase _ _ _ _ H) as Hp. cbn in Hp. unfold mpi_step, error_exit. split.
  - intros Hc. assert (ms_phase s = Before \/ ms_phase s = Finalised) as Hs.
    { destruct Hp as [(? & ? & ?)|[(? & ? & ?)|(? & ? & ?)]]; [by left|lia|by right]. }
    destruct Hs as [-> | ->]; split; try done; by intros [].
  - intros Hc. assert (ms_phase s = Active) as ->; [|done].
    destruct Hp as [(? & ? & ?)|[(? & ? & ?)|(? & ? & ?)]]; [lia|done|lia].
Qed.
Print Assumptions C123_errors.

(** Every living environment - opened or copied, inside the session or after it -
    reports this process's rank in its communicator and the communicator's size,
    and keeps doing so as long as it lives. *)
Theorem C123_rank_and_size : forall pl ops s k c, mpi_run pl ops mpi_start = Ok s ->
  env_comm s k = Ok c ->
  exists r n, pl_group pl c = Some (r, n) /\ env_rank s k = Ok r /\ env_sizeRank s k = Ok n /\
  forall ops' s', Forall (fun op => op <> EFree k) ops' -> mpi_run pl ops' s = Ok s' ->
    env_comm s' k = Ok c /\ env_rank s' k = Ok r /\ env_sizeRank s' k = Ok n.
Proof.
  intros pl ops s k c H Hc.
  assert (Hinv : forall ops s s', (forall k e, mjoin (ms_envs s !! k) = Some e -> pl_group pl (en_comm e) = Some (en_rank e, en_size e)) ->
    mpi_run pl ops s = Ok s' -> forall k e, mjoin (ms_envs s' !! k) = Some e -> pl_group pl (en_comm e) = Some (en_rank e, en_size e)).
  { clear. intros ops. induction ops as [|op ops IH]; intros s s' Hi H; [by injection H as <-|].
    rewrite run_cons in H. destruct (mpi_step pl op s) as [s1| | |] eqn:E; try discriminate. cbn in H. refine (IH s1 s' _ H).
    assert (Happ : forall e0, pl_group pl (en_comm e0) = Some (en_rank e0, en_size e0) -> forall k e,
      mjoin ((ms_envs s ++ [Some e0]) !! k) = Some e -> pl_group pl (en_comm e) = Some (en_rank e, en_size e)).
    { intros e0 He0 k e Hk. destruct (decide (k < length (ms_envs s))) as [Hlt|Hge].
      - rewrite lookup_app_l in Hk by done. by eapply Hi.
      - rewrite lookup_app_r in Hk by lia. destruct (k - length (ms_envs s)) as [|j]; cbn in Hk; [congruence|].
        by destruct j. }
    intros k e Hk. destruct op as [|j|j|[d|]|j|j|]; cbn in E.
    - destruct (ms_phase s); try discriminate. destruct (_ && _); cbn in E; [discriminate|]. injection E as <-. by eapply Hi.
    - destruct (ms_inits s !! j) as [[]|]; try discriminate. injection E as <-. by eapply Hi.
    - destruct (ms_inits s !! j) as [[]|]; try discriminate. destruct (ms_phase s); try discriminate. injection E as <-. by eapply Hi.
    - destruct (ms_phase s) eqn:Ep; try discriminate. destruct (pl_group pl d) as [[r n]|] eqn:Eg; try discriminate. injection E as <-.
      by eapply (Happ (MpiEnv d r n)).
    - unfold error_exit in E. destruct (ms_phase s); discriminate.
    - destruct (mjoin (ms_envs s !! j)) as [e0|] eqn:Ej; try discriminate. injection E as <-. eapply (Happ e0); [by eapply Hi|done].
    - destruct (mjoin (ms_envs s !! j)) as [e0|] eqn:Ej; try discriminate. injection E as <-. cbn [ms_envs] in Hk.
      destruct (decide (j = k)) as [->|Hne].
      + rewrite list_lookup_insert in Hk; [discriminate|]. destruct (ms_envs s !! k) eqn:E2; [|discriminate]. by apply lookup_lt_Some in E2.
      + rewrite list_lookup_insert_ne in Hk by done. by eapply Hi.
    - unfold error_exit in E. destruct (ms_phase s); discriminate. }
  assert (Hkeep : forall ops s s' e, Forall (fun op => op <> EFree k) ops -> mpi_run pl ops s = Ok s' ->
    mjoin (ms_envs s !! k) = Some e -> mjoin (ms_envs s' !! k) = Some e).
  { clear. intros ops. induction ops as [|op ops IH]; intros s s' e Hn H Hk; [by injection H as <-|].
    rewrite run_cons in H. destruct (mpi_step pl op s) as [s1| | |] eqn:E; try discriminate. cbn in H.
    apply Forall_cons in Hn as [Hn1 Hn2]. refine (IH s1 s' e Hn2 H _).
    assert (Happ : forall e0, mjoin ((ms_envs s ++ [e0]) !! k) = Some e).
    { intros e0. rewrite lookup_app_l; [done|]. destruct (ms_envs s !! k) eqn:E2; [|discriminate]. by apply lookup_lt_Some in E2. }
    destruct op as [|j|j|[d|]|j|j|]; cbn in E.
    - destruct (ms_phase s); try discriminate. destruct (_ && _); cbn in E; [discriminate|]. by injection E as <-.
    - destruct (ms_inits s !! j) as [[]|]; try discriminate. by injection E as <-.
    - destruct (ms_inits s !! j) as [[]|]; try discriminate. destruct (ms_phase s); try discriminate. by injection E as <-.
    - destruct (ms_phase s) eqn:Ep; try discriminate. destruct (pl_group pl d) as [[r n]|] eqn:Eg; try discriminate. injection E as <-. apply Happ.
    - unfold error_exit in E. destruct (ms_phase s); discriminate.
    - destruct (mjoin (ms_envs s !! j)) as [e0|] eqn:Ej; try discriminate. injection E as <-. apply Happ.
    - destruct (mjoin (ms_envs s !! j)) as [e0|] eqn:Ej; try discriminate. injection E as <-. cbn [ms_envs].
      rewrite list_lookup_insert_ne; [done|]. intros ->. by apply Hn1.
    - unfold error_exit in E. destruct (ms_phase s); discriminate. }
  unfold env_comm in Hc. destruct (mjoin (ms_envs s !! k)) as [e|] eqn:Ek; [|discriminate]. injection Hc as <-.
  exists (en_rank e), (en_size e). split.
  { eapply (Hinv ops mpi_start s); [|done|done]. intros j e0 Hj. by destruct j. }
  split; [unfold env_rank; by rewrite Ek|]. split; [unfold env_sizeRank; by rewrite Ek|].
  intros ops' s' Hn H'. pose proof (Hkeep _ _ _ _ Hn H' Ek) as E'. unfold env_comm, env_rank, env_sizeRank. by rewrite E'.
Qed.
Print Assumptions C123_rank_and_size.

(** The test driver's program: MPIInit, an environment on the world, a copy of it
    used after the session; and one that copies MPIInit. *)
Theorem C123_instance :
  let pl := MpiPlatform true true (fun c => if decide (c = 0) then Some (2, 4) else None) in
  let good := [MInit; EOpen (Some 0); ECopy 0; EFree 0; MFree 0] in
  lifetimes [] [] good /\
  (exists s, mpi_run pl good mpi_start = Ok s /\ env_comm s 1 = Ok 0 /\ env_rank s 1 = Ok 2 /\ env_sizeRank s 1 = Ok 4 /\
     ms_inits s = [false]) /\
  lifetimes [] [] [MInit; MCopy 0; MFree 1; MFree 0] /\
  mpi_run pl [MInit; MCopy 0; MFree 1; MFree 0] mpi_start = UB.
Proof. split; [by repeat split|]. split; [by eexists|]. by repeat split. Qed.
Print Assumptions C123_instance.
