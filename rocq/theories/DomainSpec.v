(** What DomainField objects are to a user: independent values.  No memory here. *)
From stdpp Require Import gmap.
From Verif Require Import Base Exec FieldMem DomainMem.

Section spec.
  Context {V : Type}.

  (** A domain field: executors and sizes it reports, and its seven arrays, each
      on an executor. *)
  Record dvalue := DValue { dv_tags : dtags; dv_arr : list (executor * list V) }.

  Definition dlive (s : gmap nat dvalue) (x : nat) : bool := bool_decide (is_Some (s !! x)).

  (** [None]: the program stops (an assertion fails). *)
  Definition dspec_step (s : gmap nat dvalue) (c : dop V) : option (gmap nat dvalue) :=
    if well_scoped (dlive s) c then
      match c with
      | DNew x e cells vals refs fracs grads types offs =>
          Some (<[x := DValue (DTags e e (length offs - 1) (length vals))
                         (map (pair e) [cells; vals; refs; fracs; grads; types; offs])]> s)
      | DCopyTo x e y =>
          match s !! y with
          | Some v => let t := dv_tags v in
              Some (<[x := DValue (DTags e (t_bexec t) (t_nB t) (t_nF t)) (map (fun p => (e, p.2)) (dv_arr v))]> s)
          | None => Some s
          end
      | DCopy x y => match s !! y with Some v => Some (<[x := v]> s) | None => Some s end
      | DMove x y =>
          match s !! y with
          | Some v => Some (<[y := DValue (dv_tags v)
                                     (match dv_arr v with (e, _) :: r => (e, []) :: r | [] => [] end)]>
                             (<[x := v]> s))
          | None => Some s
          end
      | DAssign x y _ =>
          match s !! x, s !! y with
          | Some v, Some w =>
              if decide (map fst (dv_arr v) = map fst (dv_arr w)) then
                let t := dv_tags w in
                Some (<[x := DValue (DTags (t_exec (dv_tags v)) (t_bexec t) (t_nB t) (t_nF t)) (dv_arr w)]> s)
              else None
          | _, _ => Some s
          end
      | DDestroy x => Some (delete x s)
      | DWrite x k f =>
          match s !! x with
          | Some v => Some (<[x := DValue (dv_tags v) (alter (fun p => (p.1, imap f p.2)) k (dv_arr v))]> s)
          | None => Some s
          end
      end
    else Some s.

  Fixpoint dspec_run (s : gmap nat dvalue) (h : list (dop V)) : option (gmap nat dvalue) :=
    match h with
    | [] => Some s
    | c :: h' => match dspec_step s c with Some s' => dspec_run s' h' | None => None end
    end.
End spec.
Arguments dvalue V : clear implicits.
