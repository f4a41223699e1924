(** C110: copies of volume fields and the database; executors of registered copies. *)
From Verif Require Import Base Exec Dict Database Boundary VolumeObj.
From Verif Require Fields.

(** A copy of a volume field stays registered as the original: whatever is done to
    the copy's name and values, its old-time field is the original's, created on
    the first request by either of them. *)
Theorem C110_copy_old_time : forall (f : field) (name : string) (internal boundary : list Qc) (w : dbworld),
  let c := set_values (set_name (volumeField_copy f) name) internal boundary in
  registered c = registered f /\ oldTime c w = oldTime f w /\ oldTime_const c w = oldTime_const f w.
Proof. intros f name internal boundary w c. split; [reflexivity|]. split; reflexivity. Qed.
Print Assumptions C110_copy_old_time.


(** A copy has the name and values of the original, and registering it instead of
    the original stores the same. *)
Theorem C110_volume_copy : forall (f : field),
  let c := volumeField_copy f in
  f_type c = f_type f /\ f_name c = f_name f /\ f_internal c = f_internal f /\ f_boundary c = f_boundary f /\
  forall name t i s w, w_step w (WRegister name c t i s) = w_step w (WRegister name f t i s).
Proof. intros [ty n i b k co d] c. repeat split. Qed.
Print Assumptions C110_volume_copy.

(** A field constructed without a database is not registered: asking for its
    old-time field throws and changes nothing.  So does one constructed with a
    database but not registered in a collection. *)
Theorem C110_unregistered : forall T name internal boundary (w : dbworld),
  oldTime (volumeField_new T name internal boundary) w = (Throw RuntimeError, w) /\
  oldTime (volumeField_in_db T name internal boundary "" "") w = (Throw RuntimeError, w).
Proof. intros. split; reflexivity. Qed.
Print Assumptions C110_unregistered.

(** The arrays of a field made from an existing one are on the mesh's executor,
    whatever executor the existing field is on, and have its contents; the field
    reports the existing field's executor.  The two agree iff the existing field
    reports its mesh's executor. *)
Definition all_on {V} (e : executor) (d : domainField V) : Prop :=
  Fields.fexec (df_internal d) = e /\ Fields.fexec (bf_value (df_boundary d)) = e /\
  Fields.fexec (bf_refValue (df_boundary d)) = e /\ Fields.fexec (bf_valueFraction (df_boundary d)) = e /\
  Fields.fexec (bf_refGrad (df_boundary d)) = e /\ Fields.fexec (bf_types (df_boundary d)) = e /\
  Fields.fexec (bf_offset (df_boundary d)) = e.
Definition same_data {V} (d d' : domainField V) : Prop :=
  Fields.fdata (df_internal d) = Fields.fdata (df_internal d') /\
  Fields.fdata (bf_value (df_boundary d)) = Fields.fdata (bf_value (df_boundary d')) /\
  Fields.fdata (bf_refValue (df_boundary d)) = Fields.fdata (bf_refValue (df_boundary d')) /\
  Fields.fdata (bf_valueFraction (df_boundary d)) = Fields.fdata (bf_valueFraction (df_boundary d')) /\
  Fields.fdata (bf_refGrad (df_boundary d)) = Fields.fdata (bf_refGrad (df_boundary d')) /\
  Fields.fdata (bf_types (df_boundary d)) = Fields.fdata (bf_types (df_boundary d')) /\
  Fields.fdata (bf_offset (df_boundary d)) = Fields.fdata (bf_offset (df_boundary d')).
Theorem C110_existing_executor : forall V (meshExec : executor) (g : geometricField V),
  let r := existing_arrays meshExec g in
  all_on meshExec (gf_field r) /\ same_data (gf_field r) (gf_field g) /\ gf_exec r = gf_exec g /\
  (all_on (gf_exec r) (gf_field r) <-> gf_exec g = meshExec).
Proof.
  intros V meshExec g r. split; [by repeat split|]. split; [by repeat split|]. split; [done|].
  split.
  - intros [H _]. exact (eq_sym H).
  - intros E. unfold r, existing_arrays, gf_from_domain. cbn. rewrite E. by repeat split.
Qed.
Print Assumptions C110_existing_executor.

(** A registered field and a copy with other values: the old-time field holds the
    values of the registered one. *)
Example C110_copy_instance :
  let f := volumeField_in_db 0 "T" [1%Qc] [] "doc_0" "c" in
  let w := w_run [WRegister "c" (volumeField_in_db 0 "T" [1%Qc] [] "" "") 1 1 1] in
  let c := set_values (volumeField_copy f) [0%Qc] [] in
  registered c = true /\ exists key w', oldTime c w = (Ok ("c", key), w') /\
    exists docs d g, w_colls w' !! "c" = Some (CField docs) /\ docs !! key = Some d /\
      doc_field 0 d = Ok g /\ f_internal g = [1%Qc] /\ f_name g = "T_0".
Proof.
  cbv zeta. split; [reflexivity|].
  set (w := w_run _). set (r := oldTime _ w).
  assert (match r with
          | (Ok (c, key), w') => c = "c" /\
              match w_colls w' !! "c" with
              | Some (CField docs) => match docs !! key with
                  | Some d => match doc_field 0 d with Ok g => f_internal g = [1%Qc] /\ f_name g = "T_0" | _ => False end
                  | None => False end
              | _ => False end
          | _ => False
          end) as H by (vm_compute; repeat split).
  destruct r as [[[c key]| | |] w']; try done. destruct H as [-> H]. exists key, w'. split; [done|].
  destruct (w_colls w' !! "c") as [[docs| |]|]; try done. destruct (docs !! key) as [d|] eqn:Ed; [|done].
  destruct (doc_field 0 d) as [g| | |] eqn:Eg; try done. exists docs, d, g. done.
Qed.
