(** Dictionary and TokenList. *)
From Verif Require Import Base.

(** Types a caller can ask for. [TOther n] stands for any further C++ type. *)
Inductive ty := TString | TLabel | TScalar | TBool | TDict | TTokens | TOther (n : nat)
| TInt64 | TField (n : nat).

(** A VolumeField (include/NeoFOAM/finiteVolume/cellCentred/fields/volumeField.hpp:
    42-210, geometricField.hpp) as far as the database sees it: which FieldType,
    name, internal and boundary values, database key, collection name and whether
    a database is set.  Executor, mesh and boundary conditions, which are copied
    unchanged, are left out. *)
Record field := Field {
  f_type : nat; f_name : string; f_internal : list Qc; f_boundary : list Qc;
  f_key : string; f_coll : string; f_db : bool
}.

(** std::any holding one of the values the code stores.  A Dictionary held in an
    any is a list of entries, a TokenList its tokens and its cursor. *)
Inductive any :=
| AEmpty
| AString (s : string)
| ALabel (z : Z)
| AScalar (q : Qc)
| ABool (b : bool)
| ADict (d : list (string * any))
| ATokens (l : list any) (next : nat)
| AOther (n : nat) (payload : nat)
| AInt64 (z : Z)
| AField (f : field).

(** std::any::type(); an empty any has type void. *)
Definition type_of (a : any) : option ty :=
  match a with
  | AEmpty => None
  | AString _ => Some TString
  | ALabel _ => Some TLabel
  | AScalar _ => Some TScalar
  | ABool _ => Some TBool
  | ADict _ => Some TDict
  | ATokens _ _ => Some TTokens
  | AOther n _ => Some (TOther n)
  | AInt64 _ => Some TInt64
  | AField f => Some (TField (f_type f))
  end.

Global Instance ty_eq_dec : EqDecision ty.
Proof. solve_decision. Defined.

(** std::any_cast<T&>(a) *)
Definition any_cast (t : ty) (a : any) : outcome any :=
  if decide (type_of a = Some t) then Ok a else Throw BadAnyCast.

(** ** Dictionary: an unordered_map<string, any>, as the list of its entries in
    iteration order (the order is never used by the properties). *)
Notation dict := (list (string * any)).

Fixpoint dfind (d : dict) (k : string) : option any :=
  match d with
  | [] => None
  | (k', v) :: d' => if decide (k = k') then Some v else dfind d' k
  end.
(** data_[key] = value *)
Fixpoint dset (d : dict) (k : string) (v : any) : dict :=
  match d with
  | [] => [(k, v)]
  | (k', v') :: d' => if decide (k = k') then (k, v) :: d' else (k', v') :: dset d' k v
  end.
(** data_.erase(key) *)
Fixpoint derase (d : dict) (k : string) : dict :=
  match d with
  | [] => []
  | (k', v') :: d' => if decide (k = k') then d' else (k', v') :: derase d' k
  end.
(** data_.insert(pair): only if the key is absent *)
Definition demplace (d : dict) (k : string) (v : any) : dict :=
  match dfind d k with Some _ => d | None => d ++ [(k, v)] end.

(** src/core/dictionary.cpp:35-41 *)
Definition dict_init (l : list (string * any)) : dict :=
  foldl (fun d kv => demplace d kv.1 kv.2) [] l.
(** l.43 *)
Definition dict_insert (d : dict) (k : string) (v : any) : dict := dset d k v.
(** l.45 *)
Definition dict_remove (d : dict) (k : string) : dict := derase d k.
(** l.47 *)
Definition dict_contains (d : dict) (k : string) : bool :=
  match dfind d k with Some _ => true | None => false end.
(** l.49-73 operator[]: std::out_of_range *)
Definition dict_at (d : dict) (k : string) : outcome any :=
  match dfind d k with Some v => Ok v | None => Throw OutOfRange end.
(** include/NeoFOAM/core/dictionary.hpp:86-121 get<T> *)
Definition dict_get (t : ty) (d : dict) (k : string) : outcome any :=
  let! v := dict_at d k in any_cast t v.
(** dictionary.cpp:75-83 *)
Definition dict_subDict (d : dict) (k : string) : outcome dict :=
  let! v := dict_at d k in
  match v with ADict s => Ok s | _ => Throw BadAnyCast end.
(** l.85-88 *)
Definition dict_isDict (d : dict) (k : string) : bool :=
  match dfind d k with Some (ADict _) => true | _ => false end.
(** l.91-99 *)
Definition dict_keys (d : dict) : list string := map fst d.
(** dictionary.hpp:163 *)
Definition dict_empty (d : dict) : bool := match d with [] => true | _ => false end.

(** Mutating calls.  The non-const accessors return references; what a caller
    does with them is:
    [DAssign k t v]: d.get<T>(k) = v, with v of type T (dictionary.hpp:86-98);
    [DAssignAny k v]: d[k] = v (dictionary.cpp:49-60);
    [DSub k o]: d.subDict(k) followed by o (dictionary.cpp:75-78). *)
Inductive dop :=
| DInsert (k : string) (v : any)
| DRemove (k : string)
| DAssign (k : string) (t : ty) (v : any)
| DAssignAny (k : string) (v : any)
| DSub (k : string) (o : dop).

(** Effect and exception of one call; exceptions are thrown before anything is
    written. *)
Fixpoint dict_step (d : dict) (o : dop) : dict * option exn :=
  match o with
  | DInsert k v => (dict_insert d k v, None)
  | DRemove k => (dict_remove d k, None)
  | DAssign k t v =>
      match dict_get t d k with
      | Ok _ => (dset d k v, None)
      | Throw e => (d, Some e)
      | _ => (d, None)
      end
  | DAssignAny k v =>
      match dict_at d k with
      | Ok _ => (dset d k v, None)
      | Throw e => (d, Some e)
      | _ => (d, None)
      end
  | DSub k o =>
      match dict_subDict d k with
      | Ok s => let '(s', x) := dict_step s o in (dset d k (ADict s'), x)
      | Throw e => (d, Some e)
      | _ => (d, None)
      end
  end.

(** A history of calls, going on after caught exceptions. *)
Definition dict_run (d : dict) (os : list dop) : dict := foldl (fun d o => (dict_step d o).1) d os.

(** ** TokenList *)
Record tokenList := TokenList { tl_data : list any; tl_next : nat }.

(** src/core/tokenList.cpp:17-27 *)
Definition tl_empty_list : tokenList := TokenList [] 0.
Definition tl_copy (t : tokenList) : tokenList := TokenList (tl_data t) (tl_next t).
Definition tl_of_list (l : list any) : tokenList := TokenList l 0.
(** l.29 *)
Definition tl_insert (t : tokenList) (v : any) : tokenList := TokenList (tl_data t ++ [v]) (tl_next t).
(** l.31-34: erasing a position past the end is undefined *)
Definition tl_remove (t : tokenList) (i : nat) : outcome tokenList :=
  if decide (i < length (tl_data t)) then Ok (TokenList (take i (tl_data t) ++ drop (S i) (tl_data t)) (tl_next t))
  else UB.
(** l.36-38 *)
Definition tl_size (t : tokenList) : nat := length (tl_data t).
(** include/NeoFOAM/core/tokenList.hpp:92-109, 134-151 *)
Definition tl_get (T : ty) (t : tokenList) (i : nat) : outcome any :=
  match tl_data t !! i with
  | Some v => any_cast T v
  | None => Throw OutOfRange
  end.
(** tokenList.hpp:118-124 and the const version 160-166 (the cursor is mutable) *)
Definition tl_next_tok (T : ty) (t : tokenList) : outcome any * tokenList :=
  match tl_get T t (tl_next t) with
  | Ok v => (Ok v, TokenList (tl_data t) (tl_next t + 1))
  | r => (r, t)
  end.
(** tokenList.hpp:70-76 *)
Definition tl_popFront (T : ty) (t : tokenList) : outcome any * tokenList :=
  match tl_get T t 0 with
  | Ok v => (Ok v, TokenList (drop 1 (tl_data t)) (tl_next t))
  | r => (r, t)
  end.

(** Histories of calls on one token list. *)
Inductive top := TInsert (v : any) | TNext (T : ty) | TPopFront (T : ty) | TGet (T : ty) (i : nat).
Definition tl_step (t : tokenList) (o : top) : outcome (option any) * tokenList :=
  match o with
  | TInsert v => (Ok None, tl_insert t v)
  | TNext T => let '(r, t') := tl_next_tok T t in ((let! v := r in Ok (Some v)), t')
  | TPopFront T => let '(r, t') := tl_popFront T t in ((let! v := r in Ok (Some v)), t')
  | TGet T i => ((let! v := tl_get T t i in Ok None), t)
  end.
Fixpoint tl_run (t : tokenList) (os : list top) : list (outcome (option any)) * tokenList :=
  match os with
  | [] => ([], t)
  | o :: os' =>
      let '(r, t1) := tl_step t o in
      let '(rs, t2) := tl_run t1 os' in (r :: rs, t2)
  end.
