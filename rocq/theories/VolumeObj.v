(** VolumeField objects: constructors, copy, what the database sees of a copy, and
    where CreateFromExistingField places its arrays.  Models
    include/NeoFOAM/finiteVolume/cellCentred/fields/volumeField.hpp:42-132,
    geometricField.hpp and include/NeoFOAM/core/database/fieldCollection.hpp:366-412. *)
From Verif Require Import Base Exec Dict Database Boundary.

(** volumeField.hpp:42-103: constructors without a database: key and collection
    empty, no database. *)
Definition volumeField_new (T : nat) (name : string) (internal boundary : list Qc) : field :=
  Field T name internal boundary "" "" false.
(** volumeField.hpp:117-126: the constructor with a database. *)
Definition volumeField_in_db (T : nat) (name : string) (internal boundary : list Qc) (key coll : string) : field :=
  Field T name internal boundary key coll true.
(** volumeField.hpp:128-132 with the implicit copy constructor of
    GeometricFieldMixin (name, executor, mesh, arrays).  There is no move
    constructor: std::move copies as well. *)
Definition volumeField_copy (f : field) : field :=
  Field (f_type f) (f_name f) (f_internal f) (f_boundary f) (f_key f) (f_coll f) (f_db f).
(** Assigning to the public member name, and writing through internalField() and
    boundaryField(). *)
Definition set_name (f : field) (n : string) : field :=
  Field (f_type f) n (f_internal f) (f_boundary f) (f_key f) (f_coll f) (f_db f).
Definition set_values (f : field) (internal boundary : list Qc) : field :=
  Field (f_type f) (f_name f) internal boundary (f_key f) (f_coll f) (f_db f).

(** fieldCollection.hpp:378-386: the arrays of the new field are built on
    [field.mesh().exec()], its executor is [field.exec()]. *)
Definition existing_arrays {V} (meshExec : executor) (g : geometricField V) : geometricField V :=
  gf_from_domain (gf_exec g) (df_new_from meshExec (df_internal (gf_field g)) (df_boundary (gf_field g))).
