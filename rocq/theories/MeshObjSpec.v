(** Specification for mesh copies: which mesh a stencil object was made for.

    A mesh is its contents together with, for each kind of stencil, the mesh on
    which the stencil it now carries was first requested.  No objects, pointers
    or counts. *)
From stdpp Require Import list.
From Verif Require Import Base MeshObj.

Section spec.
  Context {C : Type}.

  (** [None]: never requested. *)
  Record smesh := SMesh { s_data : option C; s_origin : stencil -> option nat }.

  Definition requested (t : stencil) (m : nat) (x : smesh) : smesh :=
    match s_origin x t with
    | Some _ => x
    | None => SMesh (s_data x) (fun t' => if decide (t' = t) then Some m else s_origin x t')
    end.

  (** What one operation does to the meshes; destroyed ones are [None]. *)
  Definition spec_step (l : list (option smesh)) (op : mop C) : list (option smesh) :=
    match op with
    | MNew c => l ++ [Some (SMesh (Some c) (fun _ => None))]
    | MCopy m => l ++ [mjoin (l !! m)]
    | MMove m => <[m := Some (SMesh None (fun _ => None))]> l ++ [mjoin (l !! m)]
    | MDestroy m => <[m := None]> l
    | MGet t m => alter (fmap (requested t m)) m l
    | MRelease _ => l
    end.
  Definition spec_run (ops : list (mop C)) : list (option smesh) := foldl spec_step [] ops.

  (** The contents of a live mesh that has not been moved from. *)
  Definition contents (ops : list (mop C)) (m : nat) : option C :=
    x ← mjoin (spec_run ops !! m); s_data x.
  (** The mesh on which the stencil [t] of live mesh [m] was first requested; [m]
      itself if that is still to come. *)
  Definition origin (ops : list (mop C)) (t : stencil) (m : nat) : nat :=
    default m (x ← mjoin (spec_run ops !! m); s_origin x t).
  Definition exists_after (ops : list (mop C)) (m : nat) : Prop := is_Some (mjoin (spec_run ops !! m)).
End spec.
Arguments smesh : clear implicits.
