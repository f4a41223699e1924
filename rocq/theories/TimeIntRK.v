From Verif Require Import Base Dict Registry Par Exec Fields FieldsProofs Value Kernel Mesh MeshSpec Coeff FV FVSpec Sparsity SparsitySpec Assembly AssemblySpec AssemblyProps
  Boundary Properties_Boundary Dsl DslSpec DslHeapProofs DslProofs DslAssembly Properties_Dsl Properties_DslAssembly TimeInt TimeSpec TimeIntProofs TimeIntSteps.

Lemma surely_ex {A B} (P : A -> Prop) (q : A -> outcome B -> Prop) b :
  (exists a, P a) -> (forall a, P a -> surely (q a) b) -> surely (fun r => exists a, P a /\ q a r) b.
Proof.
  intros [a0 H0] Hq r. split.
  - intros (a & Ha & Hr). by apply (Hq a Ha).
  - intros ->. exists a0. split; [done|]. by apply Hq.
Qed.
Lemma some_length {A} (l : list A) : exists j : list A, length j = length l.
Proof. by exists l. Qed.

Section rk.
  Context (cx : ctx Qc) (n : nat).
  Notation m := (cx_mesh cx).

  (** The values of one Euler step from [old] with source [g]. *)
  Definition advanced (old : list Qc) (g : nat -> Qc) (dt : Qc) : list Qc :=
    erk_step old (map (fun x => x * - (1))%Qc (map g (seq 0 (nCells m)))) dt.
  Lemma advanced_length old g dt : length old = nCells m -> length (advanced old g dt) = nCells m.
  Proof. intros Ho. unfold advanced, erk_step. rewrite zip_with_length, !map_length, seq_length. lia. Qed.
  Lemma advanced_at old g dt c : length old = nCells m -> c < nCells m -> at0 (advanced old g dt) c = (at0 old c - dt * g c)%Qc.
  Proof.
    intros Ho Hc. unfold advanced, erk_step, at0. rewrite lookup_zip_with.
    destruct (lookup_lt_is_Some_2 old c) as [o Eo]; [lia|]. rewrite Eo. simpl.
    rewrite map_map. change (map (fun x => g x * - (1))%Qc (seq 0 (nCells m))) with ((fun x => g x * - (1))%Qc <$> seq 0 (nCells m)).
    rewrite list_lookup_fmap, lookup_seq_lt by done. simpl. ring.
  Qed.

  (** A step of an initialised integrator that is up to date. *)
  Lemma rk_step d h exp s t dt st g :
    state_ok cx st -> length (rk_yn s) = nCells m -> rk_tn s = t -> dt <> 0%Qc ->
    adds (nCells m) (explicitOperation (at_state cx n st) h (rk_expr s)) g ->
    surely (rungeKutta_solve cx n d (Some s) h exp t dt st)
      (RkState (rk_expr s) (advanced (rk_yn s) g dt) (t + dt)%Qc, h,
       TState (with_int (ts_phi st) (advanced (rk_yn s) g dt)) (Some (advanced (rk_yn s) g dt))).
  Proof.
    intros Hst Hy Ht Hdt Hg. unfold rungeKutta_solve.
    eapply surely_rseq; [apply surely_ret|]. cbv beta iota.
    apply surely_ex; [apply some_length|]. intros sol Hsol.
    pose proof Hst as [[Hi _] Ho].
    eapply surely_rseq; [unfold fieldToSunNVector, view_copy; apply fop_copy; lia|].
    pose proof (explicit_surely cx n h (rk_expr s) st g Hst Hg) as Hsrc. rewrite Hi, <- Hy in Hsrc.
    apply (surely_iff (fun r' => exists ydot0, length ydot0 = length (rk_yn s) /\
      rseq (explicitRKSolve cx n st h (rk_expr s) (rk_yn s) ydot0) (fun ydot r'' =>
        let y := erk_step (rk_yn s) ydot dt in
        if decide (t + dt = rk_tn s + dt)%Qc then
          rseq (sunNVectorToField cx y (vf_int (ts_phi st))) (fun int' =>
          rseq (fop (Fields.assign_field (Fields.mkField (cx_exec cx) (old_of st)) (Fields.mkField (cx_exec cx) int'))) (fun old' r3 =>
            r3 = Ok (RkState (rk_expr s) y (rk_tn s + dt)%Qc, h, TState (with_int (ts_phi st) int') (Some old')))) r''
        else r'' = Exit) r')).
    { intros r'. split; [by right|]. intros [?|Hr]; [done|exact Hr]. }
    apply surely_ex; [apply some_length|]. intros yd Hyd.
    eapply surely_rseq.
    { unfold explicitRKSolve. eapply surely_rseq; [exact Hsrc|]. eapply surely_rseq; [apply fop_scale|].
      unfold fieldToSunNVector, view_copy. apply fop_copy. rewrite !map_length, seq_length. lia. }
    rewrite Hy. set (y := advanced (rk_yn s) g dt).
    assert (Ey : erk_step (rk_yn s) (map (fun x => x * - (1))%Qc (map g (seq 0 (nCells m)))) dt = y) by reflexivity.
    assert (Hly : length y = nCells m) by (by apply advanced_length).
    apply (surely_iff (rseq (sunNVectorToField cx y (vf_int (ts_phi st))) (fun int' =>
          rseq (fop (Fields.assign_field (Fields.mkField (cx_exec cx) (old_of st)) (Fields.mkField (cx_exec cx) int'))) (fun old' r3 =>
            r3 = Ok (RkState (rk_expr s) y (t + dt)%Qc, h, TState (with_int (ts_phi st) int') (Some old')))))).
    { intros r'. cbv beta zeta. rewrite Ey, Ht, decide_True by done. done. }
    eapply surely_rseq.
    { unfold sunNVectorToField, view_copy. rewrite Hi, <- Hly. apply fop_copy. lia. }
    eapply surely_rseq; [apply fop_assign|]. apply surely_ret.
  Qed.

  (** The first step. *)
  Lemma rk_first d h exp v t dt st g :
    state_ok cx st -> dt <> 0%Qc -> get_string d "Runge-Kutta-Method" = Ok "Forward-Euler"%string ->
    isE h exp v ->
    (forall h' e', isE h' e' v -> adds (nCells m) (explicitOperation (at_state cx n st) h' e') g) ->
    exists e' h', ext h h' /\ isE h' e' v /\
    surely (rungeKutta_solve cx n d None h exp t dt st)
      (RkState e' (advanced (old_of st) g dt) (t + dt)%Qc, h',
       TState (with_int (ts_phi st) (advanced (old_of st) g dt)) (Some (advanced (old_of st) g dt))).
  Proof.
    intros Hst Hdt Hk HE Hg. destruct (copyE_ok h exp v HE) as (e' & h' & Ec & Hx & HE').
    exists e', h'. split; [done|]. split; [done|].
    pose proof (rk_step d h' exp (RkState e' (old_of st) t) t dt st g Hst (proj2 Hst) eq_refl Hdt (Hg h' e' HE')) as Hs.
    unfold rungeKutta_solve in *. eapply surely_rseq.
    - assert (Hi : surely (rk_init cx d h exp (old_of st) t) (RkState e' (old_of st) t, h')); [|exact Hi].
      apply (surely_iff (fun r => exists junk, length junk = length (old_of st) /\
        rseq (fieldToSunNVector cx (old_of st) junk) (fun ic r' => r' = Ok (RkState e' ic t, h')) r)).
      { intros r. unfold rk_init. rewrite Ec, Hk. reflexivity. }
      apply surely_ex; [apply some_length|]. intros junk Hj.
      eapply surely_rseq; [unfold fieldToSunNVector, view_copy; apply fop_copy; lia|]. apply surely_ret.
    - cbv beta iota. intros r. rewrite <- (Hs r). rewrite (rseq_surely _ _ (RkState e' (old_of st) t, h')) by apply surely_ret.
      reflexivity.
  Qed.

  Lemma advanced_state st g dt : state_ok cx st -> length (advanced (old_of st) g dt) = nCells m ->
    state_ok cx (TState (with_int (ts_phi st) (advanced (old_of st) g dt)) (Some (advanced (old_of st) g dt))).
  Proof.
    intros [(Hi & Hv & Hrv & Hvf & Hrg) Ho] Hl. split; [repeat split; done|]. done.
  Qed.
  Lemma advanced_euler st g dt : state_ok cx st ->
    euler_internal cx g dt st (TState (with_int (ts_phi st) (advanced (old_of st) g dt)) (Some (advanced (old_of st) g dt))).
  Proof.
    intros [_ Ho]. split; [by apply advanced_length| |done]. intros c Hc. by apply advanced_at.
  Qed.
End rk.
