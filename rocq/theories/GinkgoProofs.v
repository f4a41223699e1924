From Verif Require Import Base Dict DictProofs Ginkgo.

Lemma any_ind' (P : any -> Prop) (Hleaf : forall a, (forall d, a <> ADict d) -> P a)
  (Hdict : forall d, Forall P (map snd d) -> P (ADict d)) : forall a, P a.
Proof.
  fix F 1. intros a. destruct a as [|s|z|q|b|d|l nx|n p|z|f]; try (apply Hleaf; discriminate).
  apply Hdict.
  refine ((fix G (d : list (string * any)) : Forall P (map snd d) :=
    match d with [] => _ | (k, v) :: d' => _ end) d).
  - constructor.
  - simpl. constructor; [apply F|apply G].
Qed.

Lemma pfind_app m k n k' : pfind m k = None -> pfind (m ++ [(k, n)]) k' = if decide (k' = k) then Some n else pfind m k'.
Proof.
  intros Hk. induction m as [|[a b] m IH]; simpl in *; [done|]. destruct (decide (k = a)) as [->|Hne]; [done|].
  rewrite IH by done. destruct (decide (k' = a)) as [->|]; [|done]. by rewrite decide_False by congruence.
Qed.
Lemma dfind_not_in (d : list (string * any)) k : k ∉ map fst d -> dfind d k = None.
Proof.
  induction d as [|[a b] d IH]; simpl; [done|]. intros H. apply not_elem_of_cons in H as [H1 H2].
  by rewrite decide_False, IH.
Qed.

Section proofs.
  Context (cstr : nat -> string) (flt : nat -> Qc).
  Notation parse_any := (parse_any cstr flt).
  Notation mirrors := (mirrors cstr flt).

  Lemma parse_spec a : keys_unique a ->
    (exists n, parse_any a = Ok n /\ mirrors a n /\ ~ has_bad a) \/ (parse_any a = Throw RuntimeError /\ has_bad a).
  Proof.
    induction a as [a Hleaf|d IH] using any_ind'; intros Hu.
    - assert (E : parse_any a = parseData cstr flt a) by (destruct a; try done; by edestruct Hleaf). rewrite E.
      assert (Hb : supported a -> ~ has_bad a).
      { intros Hs Hb. destruct Hb as [a _ Hn|d k v _ _]; [done|]. by edestruct Hleaf. }
      destruct a as [|s|z|q|b|d|l nx|n p|z|f]; simpl; try (right; split; [done|]; apply bad_here; [done|by intros []]);
        try (left; eexists; split; [done|]; split; [constructor|by apply Hb]).
      destruct (Nat.eqb_spec n t_cstr) as [->|H1].
      { left. eexists. split; [done|]. split; [constructor|apply Hb]. simpl. lia. }
      destruct (Nat.eqb_spec n t_unsigned) as [->|H2].
      { left. eexists. split; [done|]. split; [constructor|apply Hb]. simpl. lia. }
      destruct (Nat.eqb_spec n t_float) as [->|H3].
      { left. eexists. split; [done|]. split; [constructor|apply Hb]. simpl. lia. }
      right. split; [done|]. apply bad_here; [done|]. simpl. naive_solver.
    - inversion Hu as [a Hl E1|d' Hnd Hf E1]; subst; [by edestruct Hl|]. simpl.
      set (go := fix go (d : list (string * any)) (acc : list (string * pnode)) : outcome (list (string * pnode)) :=
           match d with
           | [] => Ok acc
           | (k, v) :: d' => let! n := parse_any v in go d' (pemplace acc k n)
           end).
      assert (G : forall d acc, NoDup (map fst d) -> Forall (fun a => keys_unique a ->
          (exists n, parse_any a = Ok n /\ mirrors a n /\ ~ has_bad a) \/ (parse_any a = Throw RuntimeError /\ has_bad a)) (map snd d) ->
        Forall keys_unique (map snd d) -> (forall k, k ∈ map fst d -> pfind acc k = None) ->
        (exists m, go d acc = Ok m /\ (forall k v, dfind d k = Some v -> (exists n, pfind m k = Some n /\ mirrors v n) /\ ~ has_bad v) /\
            (forall k, dfind d k = None -> pfind m k = pfind acc k)) \/
        (go d acc = Throw RuntimeError /\ exists k v, dfind d k = Some v /\ has_bad v)).
      { clear. intros d. induction d as [|[k v] d IH]; intros acc Hnd HP Hu Hacc.
        - left. exists acc. simpl. split; [done|]. split; done.
        - cbn [map fst snd] in *. apply NoDup_cons in Hnd as [Hk Hnd]. apply Forall_cons in HP as [HPv HP]. apply Forall_cons in Hu as [Huv Hu].
          destruct (HPv Huv) as [(n & En & Hm & Hnb)|[En Hb]].
          + cbn [go]. rewrite En. cbn [obind].
            assert (Hka : pfind acc k = None) by (apply Hacc; left).
            assert (Epe : pemplace acc k n = acc ++ [(k, n)]) by (unfold pemplace; by rewrite Hka). rewrite Epe.
            destruct (IH (acc ++ [(k, n)]) Hnd HP Hu) as [(m & Em & Hm1 & Hm2)|(Em & k' & v' & Hd & Hb)].
            { intros k' Hk'. rewrite pfind_app by done. rewrite decide_False by (intros ->; done). apply Hacc. by right. }
            * left. exists m. split; [done|]. split.
              { intros k' v' Hd. simpl in Hd. destruct (decide (k' = k)) as [->|Hne].
                - injection Hd as <-. split; [|done]. exists n. split; [|done].
                  rewrite Hm2 by (by apply dfind_not_in). rewrite pfind_app by done. by rewrite decide_True.
                - by apply Hm1. }
              { intros k' Hd. simpl in Hd. destruct (decide (k' = k)) as [->|Hne]; [done|].
                rewrite Hm2 by done. rewrite pfind_app by done. by rewrite decide_False. }
            * right. split; [done|]. exists k', v'. split; [|done]. simpl. rewrite decide_False; [done|].
              intros ->. by rewrite dfind_not_in in Hd.
          + right. cbn [go]. rewrite En. split; [done|]. exists k, v. split; [|done]. simpl. by rewrite decide_True. }
      destruct (G d []) as [(m & Em & Hm1 & Hm2)|(Em & k & v & Hd & Hb)]; try done.
      + left. exists (PMap m). rewrite Em. split; [done|]. split.
        * constructor; [intros k v Hd; by apply Hm1|]. intros k Hd. by rewrite Hm2.
        * intros Hb. inversion Hb as [a' Hl ?|d' k v Hd Hb']; subst; [by edestruct Hl|]. by apply (Hm1 k v) in Hb'.
      + right. rewrite Em. split; [done|]. by apply (bad_in d k v).
  Qed.
End proofs.
