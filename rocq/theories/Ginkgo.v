(** Solver dictionary to Ginkgo property tree.
    File: src/linearAlgebra/ginkgo.cpp. *)
From Verif Require Import Base Dict.

(** gko::config::pnode *)
Inductive pnode :=
| PMap (m : list (string * pnode))
| PString (s : string)
| PInt (z : Z)
| PReal (q : Qc).
(** map_type::find *)
Fixpoint pfind (m : list (string * pnode)) (k : string) : option pnode :=
  match m with
  | [] => None
  | (k', v) :: m' => if decide (k = k') then Some v else pfind m' k
  end.
(** map_type::emplace: only if the key is absent *)
Definition pemplace (m : list (string * pnode)) (k : string) (n : pnode) : list (string * pnode) :=
  match pfind m k with Some _ => m | None => m ++ [(k, n)] end.

(** The C++ types const char*, unsigned int and float are three of the types the
    Dictionary model calls [TOther]; [cstr] and [flt] read their payloads. *)
Definition t_cstr : nat := 0.
Definition t_unsigned : nat := 1.
Definition t_float : nat := 2.

Section parse.
  Context (cstr : nat -> string) (flt : nat -> Qc).

  (** l.10-49: the first of the six types that matches typeid; int is label and
      double is scalar. NF_THROW otherwise. *)
  Definition parseData (a : any) : outcome pnode :=
    match a with
    | AString s => Ok (PString s)
    | AOther n p =>
        if Nat.eqb n t_cstr then Ok (PString (cstr p))
        else if Nat.eqb n t_unsigned then Ok (PInt (Z.of_nat p))
        else if Nat.eqb n t_float then Ok (PReal (flt p))
        else Throw RuntimeError
    | ALabel z => Ok (PInt z)
    | AScalar q => Ok (PReal q)
    | _ => Throw RuntimeError
    end.

  (** l.50-64. The loop runs over the keys and looks each up again; as keys are
      unique this is a loop over the entries. *)
  Fixpoint parse_any (a : any) : outcome pnode :=
    match a with
    | ADict d =>
        let! m := (fix go (d : list (string * any)) (acc : list (string * pnode)) : outcome (list (string * pnode)) :=
           match d with
           | [] => Ok acc
           | (k, v) :: d' => let! n := parse_any v in go d' (pemplace acc k n)
           end) d [] in
        Ok (PMap m)
    | _ => parseData a
    end.
  Definition parse (d : list (string * any)) : outcome pnode := parse_any (ADict d).

  (** ** Specification *)
  (** Same keys, nesting and values. *)
  Inductive mirrors : any -> pnode -> Prop :=
  | mirrors_string s : mirrors (AString s) (PString s)
  | mirrors_cstr p : mirrors (AOther t_cstr p) (PString (cstr p))
  | mirrors_int z : mirrors (ALabel z) (PInt z)
  | mirrors_unsigned p : mirrors (AOther t_unsigned p) (PInt (Z.of_nat p))
  | mirrors_double q : mirrors (AScalar q) (PReal q)
  | mirrors_float p : mirrors (AOther t_float p) (PReal (flt p))
  | mirrors_dict d m : 
      (forall k v, dfind d k = Some v -> exists n, pfind m k = Some n /\ mirrors v n) ->
      (forall k, dfind d k = None -> pfind m k = None) -> mirrors (ADict d) (PMap m).
  (** A value of one of the supported types: text, integer, real. *)
  Definition supported (a : any) : Prop :=
    match a with
    | AString _ | ALabel _ | AScalar _ => True
    | AOther n _ => n = t_cstr \/ n = t_unsigned \/ n = t_float
    | _ => False
    end.
  (** Some (nested) entry is neither a dictionary nor supported. *)
  Inductive has_bad : any -> Prop :=
  | bad_here a : (forall d, a <> ADict d) -> ~ supported a -> has_bad a
  | bad_in d k v : dfind d k = Some v -> has_bad v -> has_bad (ADict d).
  (** Keys are unique at every level (std::unordered_map). *)
  Inductive keys_unique : any -> Prop :=
  | ku_leaf a : (forall d, a <> ADict d) -> keys_unique a
  | ku_dict d : NoDup (map fst d) -> Forall keys_unique (map snd d) -> keys_unique (ADict d).
End parse.
