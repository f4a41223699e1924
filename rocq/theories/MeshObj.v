(** Mesh objects, their copies, and the shared stencil objects attached to them.
    Models the implicit copy/move constructors and destructor of UnstructuredMesh
    (include/NeoFOAM/mesh/unstructured/unstructuredMesh.hpp:32-274), its member
    [mutable StencilDataBase stencilDataBase_] (273) holding
    std::shared_ptr<GeometryScheme> and std::shared_ptr<SparsityPattern> inside
    std::any, and the operators that keep such pointers as members
    (gaussGreenDiv.hpp:50,150; gaussGreenLaplacian.hpp:54; linear.hpp:45;
    upwind.hpp:47; uncorrected.hpp:37; ddtOperator.cpp:14; sourceTerm.cpp:16;
    dsl/expression.hpp:37).

    [C]: the geometry and topology of a mesh (its fifteen other members).  The
    stencil object's arrays are functions of the mesh it was built from (that they
    are right is C40-C46 and C52), so the model records the contents it was built
    from.  User insertions into the StencilDataBase are not modelled here (see
    Registry.v). *)
From stdpp Require Import list.
From Verif Require Import Base.

Inductive stencil := Geometry | Sparsity.
Global Instance stencil_eq_dec : EqDecision stencil.
Proof. solve_decision. Defined.

Section meshobj.
  Context {C : Type}.

  (** unstructuredMesh.hpp:190-273.  [mo_data = None]: moved from (its fields hold
      null pointers, field.hpp:136-141, while nCells_ etc. keep their values).
      [mo_geometry], [mo_sparsity]: the entries "GeometryScheme" and
      "SparsityPattern" of stencilDataBase_. *)
  Record meshObj := MeshObj {
    mo_data : option C;
    mo_geometry : option nat;
    mo_sparsity : option nat;
  }.
  (** A GeometryScheme or SparsityPattern with its reference count: the member
      [const UnstructuredMesh& mesh_] (geometryScheme.hpp:80, sparsityPattern.hpp:51)
      is the address of the mesh given to the constructor. *)
  Record stencilObj := StencilObj {
    so_kind : stencil;
    so_built_from : C;
    so_mesh : nat;
    so_count : nat;
  }.
  (** [None]: destroyed. *)
  Record world := World {
    meshes : list (option meshObj);
    stencils : list (option stencilObj);
    handles : list (option nat);
  }.
  Definition empty_world : world := World [] [] [].

  Definition mo_entry (t : stencil) (m : meshObj) : option nat :=
    match t with Geometry => mo_geometry m | Sparsity => mo_sparsity m end.
  Definition set_entry (t : stencil) (o : nat) (m : meshObj) : meshObj :=
    match t with
    | Geometry => MeshObj (mo_data m) (Some o) (mo_sparsity m)
    | Sparsity => MeshObj (mo_data m) (mo_geometry m) (Some o)
    end.
  Definition mesh_at (w : world) (m : nat) : option meshObj := mjoin (meshes w !! m).
  Definition stencil_at (w : world) (o : nat) : option stencilObj := mjoin (stencils w !! o).
  Definition handle_at (w : world) (h : nat) : option nat := mjoin (handles w !! h).

  (** Copying and destroying a std::shared_ptr. *)
  Definition add_ref (o : nat) (l : list (option stencilObj)) : list (option stencilObj) :=
    alter (fmap (fun s => StencilObj (so_kind s) (so_built_from s) (so_mesh s) (S (so_count s)))) o l.
  Definition drop_ref (o : nat) (l : list (option stencilObj)) : list (option stencilObj) :=
    alter (fun x => s ← x;
             match so_count s with
             | S (S n) => Some (StencilObj (so_kind s) (so_built_from s) (so_mesh s) (S n))
             | _ => None
             end) o l.
  Definition opt_ref (f : nat -> list (option stencilObj) -> list (option stencilObj)) (x : option nat)
      (l : list (option stencilObj)) :=
    match x with Some o => f o l | None => l end.

  (** unstructuredMesh.cpp:11-37: stencilDataBase_() is empty. *)
  Definition mesh_new (c : C) (w : world) : world :=
    World (meshes w ++ [Some (MeshObj (Some c) None None)]) (stencils w) (handles w).

  (** Implicit UnstructuredMesh(const UnstructuredMesh&): copies every member; the
      map's std::any values copy the shared pointers. *)
  Definition mesh_copy (m : nat) (w : world) : outcome world :=
    match mesh_at w m with
    | None => UB
    | Some x => Ok (World (meshes w ++ [Some x])
                          (opt_ref add_ref (mo_sparsity x) (opt_ref add_ref (mo_geometry x) (stencils w)))
                          (handles w))
    end.

  (** Implicit UnstructuredMesh(UnstructuredMesh&&): the fields are moved
      (field.hpp:136-141) and so is the map, which is left empty. *)
  Definition mesh_move (m : nat) (w : world) : outcome world :=
    match mesh_at w m with
    | None => UB
    | Some x => Ok (World (<[m := Some (MeshObj None None None)]> (meshes w) ++ [Some x]) (stencils w) (handles w))
    end.

  (** Implicit ~UnstructuredMesh(). *)
  Definition mesh_destroy (m : nat) (w : world) : outcome world :=
    match mesh_at w m with
    | None => UB
    | Some x => Ok (World (<[m := None]> (meshes w))
                          (opt_ref drop_ref (mo_sparsity x) (opt_ref drop_ref (mo_geometry x) (stencils w)))
                          (handles w))
    end.

  (** geometryScheme.cpp:16-24, sparsityPattern.cpp:20-28, by an operator that keeps
      the returned pointer.  The constructors (geometryScheme.cpp:75-100,
      sparsityPattern.cpp:10-18) read the fields of the mesh: undefined on a
      moved-from one (over-approximation: one with no cells and faces is harmless). *)
  Definition readOrCreate (t : stencil) (m : nat) (w : world) : outcome (nat * world) :=
    match mesh_at w m with
    | None => UB
    | Some x =>
        match mo_entry t x with
        | Some o => Ok (length (handles w),
                        World (meshes w) (add_ref o (stencils w)) (handles w ++ [Some o]))
        | None =>
            match mo_data x with
            | None => UB
            | Some c =>
                let o := length (stencils w) in
                Ok (length (handles w),
                    World (<[m := Some (set_entry t o x)]> (meshes w))
                          (add_ref o (stencils w ++ [Some (StencilObj t c m 1)]))
                          (handles w ++ [Some o]))
            end
        end
    end.

  (** The destructor of an operator. *)
  Definition release (h : nat) (w : world) : outcome world :=
    match handle_at w h with
    | None => UB
    | Some o => Ok (World (meshes w) (drop_ref o (stencils w)) (<[h := None]> (handles w)))
    end.

  (** sparsityPattern.hpp:36 [mesh()], used by createEmptyLinearSystem
      (linearAlgebra/linearSystem.hpp:150): the mesh referred to, which must exist. *)
  Definition stencil_mesh (h : nat) (w : world) : outcome nat :=
    match handle_at w h with
    | None => UB
    | Some o => match stencil_at w o with
                | None => UB
                | Some s => match mesh_at w (so_mesh s) with Some _ => Ok (so_mesh s) | None => UB end
                end
    end.
  (** GeometryScheme::weights() etc., SparsityPattern::rowPtrs() etc.: the stencil
      object's own arrays, described by the mesh contents they were built from. *)
  Definition stencil_data (h : nat) (w : world) : outcome (stencil * C) :=
    match handle_at w h with
    | None => UB
    | Some o => match stencil_at w o with None => UB | Some s => Ok (so_kind s, so_built_from s) end
    end.

  Inductive mop := MNew (c : C) | MCopy (m : nat) | MMove (m : nat) | MDestroy (m : nat)
                 | MGet (t : stencil) (m : nat) | MRelease (h : nat).
  Definition mstep (w : world) (op : mop) : outcome world :=
    match op with
    | MNew c => Ok (mesh_new c w)
    | MCopy m => mesh_copy m w
    | MMove m => mesh_move m w
    | MDestroy m => mesh_destroy m w
    | MGet t m => let! r := readOrCreate t m w in Ok r.2
    | MRelease h => release h w
    end.
  Fixpoint mrun (ops : list mop) (w : world) : outcome world :=
    match ops with
    | [] => Ok w
    | op :: rest => let! w' := mstep w op in mrun rest w'
    end.
End meshobj.
Arguments meshObj : clear implicits.
Arguments stencilObj : clear implicits.
Arguments world : clear implicits.
Arguments mop : clear implicits.
