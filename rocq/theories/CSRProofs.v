From Verif Require Import Base Par Exec ExecProofs Value Kernel KernelProofs CSR CSRSpec.
From Verif Require Fields FieldsProofs.

Lemma sumQ_vsum (l : list Qc) : sumQ l = vsum l.
Proof. induction l; simpl; [done|]. by rewrite IHl. Qed.
Lemma sum_over_vsum n (f : nat -> Qc) : sum_over n f = vsum_over n f.
Proof. apply sumQ_vsum. Qed.
Lemma sumQ_app l1 l2 : sumQ (l1 ++ l2) = (sumQ l1 + sumQ l2)%Qc.
Proof. induction l1; simpl; [ring|]. rewrite IHl1. ring. Qed.
Lemma sumQ_zero {A} (f : A -> Qc) l : (forall x, x ∈ l -> f x = 0%Qc) -> sumQ (map f l) = 0%Qc.
Proof. intros. rewrite sumQ_vsum. apply (vsum_map_zero (HL:=Qc_laws)); done. Qed.
Lemma sumQ_ext {A} (f g : A -> Qc) l : (forall x, x ∈ l -> f x = g x) -> sumQ (map f l) = sumQ (map g l).
Proof. intros. rewrite !sumQ_vsum. apply (vsum_map_ext (H:=Qc_value)); done. Qed.

(** ** entry *)
Lemma entry_loop_spec cols j : forall todo pos,
  pos + todo <= length cols ->
  (exists k, entry_loop cols j pos todo = Ok k /\ pos <= k < pos + todo /\ cols !! k = Some j /\
     forall k', pos <= k' < k -> exists c, cols !! k' = Some c /\ c < j) \/
  (entry_loop cols j pos todo = Exit /\
     ((forall k, pos <= k < pos + todo -> cols !! k <> Some j) \/
      exists k c, pos <= k < pos + todo /\ cols !! k = Some c /\ j < c /\ forall k', pos <= k' <= k -> cols !! k' <> Some j)).
Proof.
  induction todo as [|todo IH]; intros pos Hl; simpl.
  - right. split; [done|]. left. intros; lia.
  - destruct (lookup_lt_is_Some_2 cols pos) as [c Hc]; [lia|]. rewrite Hc. cbn [oget obind].
    destruct (Nat.eqb_spec c j) as [->|Hne].
    { left. exists pos. split; [done|]. split; [lia|]. split; [done|]. intros; lia. }
    destruct (Nat.ltb_spec j c) as [Hlt|Hge].
    { right. split; [done|]. right. exists pos, c. split; [lia|]. split; [done|]. split; [done|].
      intros k' Hk'. assert (k' = pos) as -> by lia. congruence. }
    destruct (IH (S pos)) as [(k & E & Hk & Hck & Hb)|(E & Hn)]; [lia| |].
    + left. exists k. split; [done|]. split; [lia|]. split; [done|]. intros k' Hk'.
      destruct (decide (k' = pos)) as [->|]; [exists c; split; [done|lia]|]. apply Hb. lia.
    + right. split; [done|]. destruct Hn as [Hn|(k & c' & Hk & Hck & Hjc & Hb)].
      * left. intros k Hk. destruct (decide (k = pos)) as [->|]; [congruence|]. apply Hn. lia.
      * right. exists k, c'. split; [lia|]. split; [done|]. split; [done|]. intros k' Hk'.
        destruct (decide (k' = pos)) as [->|]; [congruence|]. apply Hb. lia.
Qed.

Section ok.
  Context {V : Type} (a : csr V nat) (Hok : csr_ok a).
  Notation rows := (fdata (a_rows a)).
  Notation nnz := (length (fdata (a_values a))).

  Lemma rows_mono i j lo hi : i <= j -> rows !! i = Some lo -> rows !! j = Some hi -> lo <= hi.
  Proof.
    intros Hle. revert hi. induction Hle as [|j Hle IH]; intros hi Hi Hj; [rewrite Hi in Hj; injection Hj; lia|].
    destruct (lookup_lt_is_Some_2 rows j) as [m Hm]; [apply lookup_lt_Some in Hj; lia|].
    specialize (IH m Hi Hm). pose proof (ok_mono a Hok j m hi Hm Hj). lia.
  Qed.
  Lemma rows_last : rows !! (length rows - 1) = Some nnz.
  Proof. rewrite <- (ok_last a Hok), last_lookup. f_equal. lia. Qed.
  Lemma rows_pos : 0 < length rows.
  Proof. eapply lookup_lt_Some, (ok_first a Hok). Qed.
  Lemma nRows_length : nRows a = length rows - 1.
  Proof. unfold nRows, Fields.fsize. pose proof rows_pos. destruct (Nat.eqb_spec (length rows) 0); lia. Qed.
  Lemma rows_le i lo : rows !! i = Some lo -> lo <= nnz.
  Proof. intros H. eapply (rows_mono i (length rows - 1)); [|done|apply rows_last]. apply lookup_lt_Some in H. lia. Qed.
  Lemma row_bounds i : i < nRows a -> exists lo hi, rows !! i = Some lo /\ rows !! S i = Some hi /\ lo <= hi /\ hi <= nnz.
  Proof.
    rewrite nRows_length. intros Hi.
    destruct (lookup_lt_is_Some_2 rows i) as [lo Hlo]; [lia|].
    destruct (lookup_lt_is_Some_2 rows (S i)) as [hi Hhi]; [lia|].
    exists lo, hi. split; [done|]. split; [done|]. split; [by eapply (ok_mono a Hok)|by eapply rows_le].
  Qed.
  (** every offset lies in some row *)
  Lemma row_of k : k < nnz -> exists i lo hi, i < nRows a /\ rows !! i = Some lo /\ rows !! S i = Some hi /\ lo <= k < hi.
  Proof.
    intros Hk. assert (G : forall n hi, n < length rows -> rows !! n = Some hi -> k < hi ->
      exists i lo hi, i < n /\ rows !! i = Some lo /\ rows !! S i = Some hi /\ lo <= k < hi).
    { induction n as [|n IH]; intros hi Hn Hhi Hlt.
      - rewrite (ok_first a Hok) in Hhi. injection Hhi as <-. lia.
      - destruct (lookup_lt_is_Some_2 rows n) as [lo Hlo]; [lia|].
        destruct (decide (lo <= k)).
        + exists n, lo, hi. split; [lia|]. split; [done|]. split; [done|]. lia.
        + destruct (IH lo) as (i & l & h & Hi & ?); [lia|done|lia|]. exists i, l, h. split; [lia|done]. }
    pose proof rows_pos. destruct (G (length rows - 1) nnz) as (i & l & h & Hi & ?); [lia|apply rows_last|done|].
    exists i, l, h. split; [by rewrite nRows_length|done].
  Qed.

  Lemma entry_spec i j : i < nRows a ->
    (exists k, entry a i j = Ok k /\ stored a i j k) \/
    (entry a i j = Exit /\ ((forall k, ~ stored a i j k) \/ (exists k j', stored a i j' k /\ j < j' /\ forall k', k' <= k -> ~ stored a i j k'))).
  Proof.
    intros Hi. destruct (row_bounds i Hi) as (lo & hi & Hlo & Hhi & Hle & Hn). unfold entry.
    rewrite Hlo, Nat.add_1_r, Hhi. cbn [oget obind]. rewrite (proj2 (Nat.ltb_ge _ _) Hle).
    pose proof (ok_cols a Hok) as Hc.
    assert (Hst : forall j' k, stored a i j' k <-> lo <= k < hi /\ fdata (a_cols a) !! k = Some j').
    { intros j' k. split.
      - intros (lo' & hi' & H1 & H2 & H3). rewrite Hlo in H1. rewrite Hhi in H2. injection H1 as <-. injection H2 as <-. done.
      - intros [? ?]. exists lo, hi. done. }
    destruct (entry_loop_spec (fdata (a_cols a)) j (hi - lo) lo) as [(k & -> & Hk & Hck & _)|(-> & Hn')]; [lia| |].
    - left. exists k. cbn [obind]. destruct (lookup_lt_is_Some_2 (fdata (a_values a)) k) as [v Hv]; [lia|].
      rewrite Hv. split; [done|]. apply Hst. split; [lia|done].
    - right. split; [done|]. destruct Hn' as [Hn'|(k & c & Hk & Hck & Hjc & Hb)].
      + left. intros k Hk. apply Hst in Hk as [H1 H2]. apply (Hn' k); [lia|done].
      + right. exists k, c. split; [apply Hst; split; [lia|done]|]. split; [done|].
        intros k' Hk' Hs. apply Hst in Hs as [H1 H2]. apply (Hb k'); [lia|done].
  Qed.
End ok.

(** ** spmv *)
Lemma row_sum_spec values cols x : forall todo pos acc,
  length cols = length values -> pos + todo <= length values ->
  (forall k c, pos <= k < pos + todo -> cols !! k = Some c -> c < length x) ->
  row_sum values cols x pos todo acc =
    Some (acc + sumQ (map (fun k => default 0 (values !! k) * default 0 (cols !! k ≫= fun c => x !! c)) (seq pos todo)))%Qc.
Proof.
  induction todo as [|todo IH]; intros pos acc Hc Hl Hx; simpl.
  - f_equal. ring.
  - destruct (lookup_lt_is_Some_2 values pos) as [v Hv]; [lia|]. rewrite Hv. simpl.
    destruct (lookup_lt_is_Some_2 cols pos) as [c Hcp]; [lia|]. rewrite Hcp. simpl.
    destruct (lookup_lt_is_Some_2 x c) as [y Hy]; [by apply (Hx pos); [lia|]|]. rewrite Hy. simpl.
    rewrite IH; [|done|lia|intros k c' Hk; apply Hx; lia]. f_equal. ring.
Qed.

Lemma row_dense (a : csr Qc nat) (x : list Qc) i : csr_ok a -> i < nRows a ->
  (forall k c, fdata (a_cols a) !! k = Some c -> c < length x) ->
  sumQ (map (fun k => default 0 (fdata (a_values a) !! k) * default 0 (fdata (a_cols a) !! k ≫= fun c => x !! c))%Qc
     (row_range (fdata (a_rows a)) i))
  = sum_over (length x) (fun j => coef a i j * default 0 (x !! j))%Qc.
Proof.
  intros Hok Hi Hx. unfold coef.
  assert (Hl : Forall (fun k => k < length (fdata (a_values a))) (row_range (fdata (a_rows a)) i)).
  { destruct (row_bounds a Hok i Hi) as (lo & hi & Hlo & Hhi & Hle & Hn). unfold row_range. rewrite Hlo, Hhi. simpl.
    apply Forall_forall. intros k Hk. apply elem_of_seq in Hk. lia. }
  induction Hl as [|k l Hk Hl IH].
  - simpl. symmetry. rewrite sum_over_vsum. apply (vsum_over_zero (HL:=Qc_laws)). intros j _. simpl. ring.
  - simpl. rewrite IH. rewrite !sum_over_vsum.
    destruct (lookup_lt_is_Some_2 (fdata (a_cols a)) k) as [c Hc]; [rewrite (ok_cols a Hok); done|].
    assert (Hlt : c < length x) by (by eapply Hx).
    destruct (lookup_lt_is_Some_2 x c Hlt) as [y Hy].
    symmetry. etransitivity.
    + apply (vsum_over_ext (H:=Qc_value) (length x) _ (fun j => vadd (if decide (j = c) then (default 0 (fdata (a_values a) !! k) * y)%Qc else 0%Qc)
      (sumQ (map (fun k0 => if decide (fdata (a_cols a) !! k0 = Some j) then default 0%Qc (fdata (a_values a) !! k0) else 0%Qc) l) * default 0 (x !! j))%Qc)).
      intros j Hj. simpl. rewrite Hc. destruct (decide (j = c)) as [->|Hne].
      * rewrite decide_True by done. rewrite Hy. simpl. ring.
      * rewrite decide_False by congruence. ring.
    + rewrite (vsum_over_add (HL:=Qc_laws)). rewrite (vsum_over_single (HL:=Qc_laws)) by done. rewrite Hc. simpl. rewrite Hy. done.
Qed.

(** ** PETSc *)
Lemma expand_rows_spec {V} (a : csr V nat) : csr_ok a -> no_empty_row a ->
  forall todo rowI off index lo,
  fdata (a_rows a) !! rowI = Some lo -> fdata (a_rows a) !! S rowI = Some off -> lo <= index <= off ->
  index + todo = length (fdata (a_values a)) ->
  exists l, expand_rows (fdata (a_rows a)) rowI off index todo = Ok l /\ length l = todo /\
    forall k r, l !! k = Some r -> exists lo hi, fdata (a_rows a) !! r = Some lo /\ fdata (a_rows a) !! S r = Some hi /\ lo <= index + k < hi.
Proof.
  intros Hok Hne. induction todo as [|todo IH]; intros rowI off index lo Hlo Hoff Hin Hnnz; simpl.
  - exists []. split; [done|]. split; [done|]. intros k r Hk. done.
  - destruct (Nat.eqb_spec index off) as [->|Hneq].
    + destruct (row_of a Hok off) as (i & l & h & Hi & Hl & Hh & Hb); [lia|].
      assert (S rowI < nRows a).
      { destruct (decide (S rowI < nRows a)); [done|]. pose proof (rows_last a Hok) as Hlast.
        rewrite (nRows_length a Hok) in *. pose proof (lookup_lt_Some _ _ _ Hoff).
        assert (S rowI = length (fdata (a_rows a)) - 1) as E by lia. rewrite E, Hlast in Hoff. injection Hoff as Hoff. lia. }
      destruct (row_bounds a Hok (S rowI)) as (lo2 & hi2 & H1 & H2 & _ & _); [done|].
      rewrite Hoff in H1. injection H1 as <-. pose proof (Hne _ _ _ Hoff H2).
      rewrite Nat.add_1_r, H2. cbn [oget obind].
      destruct (IH (S rowI) hi2 (S off) off Hoff H2) as (rest & E & Hlen & Hr); [lia|lia|].
      rewrite E. cbn [obind]. eexists. split; [done|]. split; [simpl; lia|].
      intros [|k] r Hk; simpl in Hk.
      * injection Hk as <-. exists off, hi2. split; [done|]. split; [done|]. lia.
      * destruct (Hr k r Hk) as (lo' & hi' & ? & ? & ?). exists lo', hi'. split; [done|]. split; [done|]. lia.
    + destruct (IH rowI off (S index) lo Hlo Hoff) as (rest & E & Hlen & Hr); [lia|lia|].
      rewrite E. cbn [obind]. eexists. split; [done|]. split; [simpl; lia|].
      intros [|k] r Hk; simpl in Hk.
      * injection Hk as <-. exists lo, off. split; [done|]. split; [done|]. lia.
      * destruct (Hr k r Hk) as (lo' & hi' & ? & ? & ?). exists lo', hi'. split; [done|]. split; [done|]. lia.
Qed.

Lemma col_loop (cols : list nat) n : n <= length cols ->
  foldr (fun k acc => let! c := oget (cols !! k) in let! l := acc in Ok (c :: l)) (Ok []) (seq 0 n) = Ok (take n cols).
Proof.
  intros Hn.
  assert (G : forall m j, j + m <= length cols ->
    foldr (fun k acc => let! c := oget (cols !! k) in let! l := acc in Ok (c :: l)) (Ok []) (seq j m) = Ok (take m (drop j cols))).
  { induction m as [|m IH]; intros j Hj; [done|]. simpl.
    destruct (lookup_lt_is_Some_2 cols j) as [c Hc]; [lia|]. rewrite Hc. cbn [oget obind]. rewrite IH by lia. cbn [obind].
    erewrite (drop_S cols c j) by done. done. }
  rewrite G by lia. done.
Qed.

Lemma rows_unique {V} (a : csr V nat) : csr_ok a -> forall r r' lo hi lo' hi' k,
  fdata (a_rows a) !! r = Some lo -> fdata (a_rows a) !! S r = Some hi -> lo <= k < hi ->
  fdata (a_rows a) !! r' = Some lo' -> fdata (a_rows a) !! S r' = Some hi' -> lo' <= k < hi' -> r = r'.
Proof.
  intros Hok r r' lo hi lo' hi' k H1 H2 H3 H4 H5 H6.
  destruct (decide (r < r')) as [Hlt|]; [pose proof (rows_mono a Hok (S r) r' hi lo' Hlt H2 H4); lia|].
  destruct (decide (r' < r)) as [Hlt|]; [pose proof (rows_mono a Hok (S r') r hi' lo Hlt H5 H1); lia|]. lia.
Qed.

(** a sum over all offsets restricted to one row *)
Lemma sum_row (a : csr Qc nat) (f : nat -> Qc) j : csr_ok a -> j < nRows a ->
  (forall k lo hi, fdata (a_rows a) !! j = Some lo -> fdata (a_rows a) !! S j = Some hi -> ~ lo <= k < hi -> f k = 0%Qc) ->
  sumQ (map f (seq 0 (length (fdata (a_values a))))) = sumQ (map f (row_range (fdata (a_rows a)) j)).
Proof.
  intros Hok Hj Hf. destruct (row_bounds a Hok j Hj) as (lo & hi & Hlo & Hhi & Hle & Hn).
  unfold row_range. rewrite Hlo, Hhi. simpl.
  replace (length (fdata (a_values a))) with (lo + ((hi - lo) + (length (fdata (a_values a)) - hi))) by lia.
  rewrite !seq_app, !map_app, !sumQ_app.
  rewrite (sumQ_zero f (seq 0 lo)), (sumQ_zero f (seq _ (length _ - hi))); [simpl; ring| |].
  - intros k Hk. apply elem_of_seq in Hk. eapply Hf; eauto. lia.
  - intros k Hk. apply elem_of_seq in Hk. eapply Hf; eauto. lia.
Qed.

Lemma copyToHost_data {V} (f : Fields.field V) : fdata (Fields.copyToHost f) = fdata f /\ Fields.fexec (Fields.copyToHost f) = SerialExecutor.
Proof. unfold Fields.copyToHost, Fields.copyToExecutor. destruct (Fields.fexec f) eqn:E; simpl; done. Qed.

Lemma csr_copyToHost_ok {V} (a : csr V nat) : csr_ok a ->
  csr_copyToHost a = Ok (Csr (Fields.mkField SerialExecutor (fdata (a_values a)))
    (Fields.mkField SerialExecutor (fdata (a_cols a))) (Fields.mkField SerialExecutor (fdata (a_rows a)))).
Proof.
  intros Hok. pose proof (ok_exec a Hok) as [H1 H2]. unfold csr_copyToHost, csr_copyToExecutor.
  destruct a as [[ev dv] [ec dc] [er dr]]. unfold a_exec in *. simpl in *. subst ec er. destruct ev; done.
Qed.
Lemma ls_copyToHost_ok {V} (ls : linsys V nat) : csr_ok (l_matrix ls) -> length (fdata (l_rhs ls)) = nRows (l_matrix ls) ->
  ls_copyToHost ls = Ok (LinSys (Csr (Fields.mkField SerialExecutor (fdata (a_values (l_matrix ls))))
    (Fields.mkField SerialExecutor (fdata (a_cols (l_matrix ls)))) (Fields.mkField SerialExecutor (fdata (a_rows (l_matrix ls)))))
    (Fields.mkField SerialExecutor (fdata (l_rhs ls)))).
Proof.
  intros Hok Hr. unfold ls_copyToHost. rewrite csr_copyToHost_ok by done. cbn [obind]. unfold ls_new.
  destruct (copyToHost_data (l_rhs ls)) as [H1 H2]. rewrite H2. cbn [a_exec a_values Fields.fexec exec_eqb].
  unfold a_exec. cbn [a_values Fields.fexec exec_eqb].
  rewrite (proj2 (Nat.eqb_eq _ _)).
  - destruct (Fields.copyToHost (l_rhs ls)) as [e d]. simpl in *. by subst.
  - unfold Fields.fsize. rewrite H1, Hr. unfold nRows, Fields.fsize. done.
Qed.

Lemma set_kernel_on {V} (a : Fields.field V) f r o :
  (forall i, i < Fields.fsize a -> is_Some (f i)) ->
  Fields.kernel_on a (iterations 0 (Fields.fsize a) (set_kernel f)) r o ->
  o = Ok tt /\ Fields.fexec r = Fields.fexec a /\ Fields.fsize r = Fields.fsize a /\
  forall i, i < Fields.fsize a -> fdata r !! i = f i.
Proof.
  intros Hf H. apply FieldsProofs.set_range in H as (H1 & H2 & H3 & H4); [|lia|lia|intros; by apply Hf].
  split; [done|]. split; [done|]. split; [done|]. intros i Hi. rewrite H4. by rewrite decide_True by lia.
Qed.
