(** RuntimeSelectionFactory, building operators from schemes, StencilDataBase. *)
From stdpp Require Export gmap fin_maps.
From Verif Require Import Base Dict.

(** ** RuntimeSelectionFactory
    (include/NeoFOAM/core/runtimeSelectionFactory.hpp).
    A class is a number; its creator is determined by it. *)
Record factory := Factory {
  f_table : gmap string nat;     (* table(),    l.360-364 *)
  f_docs : gmap string nat;      (* docTable(), l.374-378 *)
}.
Definition empty_factory : factory := Factory ∅ ∅.

(** All factories (one per Base type, numbered) and the global table of base
    class documentation (l.101-105), whose entries point to a factory. *)
Record world := World {
  w_factories : gmap nat factory;
  w_baseDocs : gmap string nat;
}.
Definition empty_world : world := World ∅ ∅.
Definition get_factory (w : world) (b : nat) : factory := default empty_factory (w_factories w !! b).

Inductive reg :=
| RegBase (b : nat) (name : string)                (* RegisterDocumentation::init, l.138-143 *)
| RegSub (b : nat) (name : string) (cls : nat).    (* Register::addSubType, l.315-329        *)

Definition do_reg (w : world) (r : reg) : world :=
  match r with
  | RegBase b name => World (w_factories w) (<[name := b]> (w_baseDocs w))       (* l.59-63 *)
  | RegSub b name cls =>
      let f := get_factory w b in
      World (<[b := Factory (<[name := cls]> (f_table f)) (<[name := cls]> (f_docs f))]> (w_factories w))
            (w_baseDocs w)
  end.
Definition run_regs (rs : list reg) : world := foldl do_reg empty_world rs.

(** l.259-264 with keyExistsOrError l.388-401: the class built. *)
Definition create (w : world) (b : nat) (key : string) : outcome nat :=
  match f_table (get_factory w b) !! key with
  | Some cls => Ok cls
  | None => Exit
  end.
(** l.209-225: doc / schema of a derived class; map::at throws. *)
Definition derived_doc (w : world) (b : nat) (key : string) : outcome nat :=
  match f_docs (get_factory w b) !! key with Some cls => Ok cls | None => Throw OutOfRange end.
(** l.235-243 entries() (order unspecified) *)
Definition entries (w : world) (b : nat) : list string := (map_to_list (f_table (get_factory w b))).*1.
(** l.72-99: documentation of a derived class looked up by base class name *)
Definition base_doc (w : world) (base : string) (key : string) : outcome nat :=
  match w_baseDocs w !! base with
  | Some b => derived_doc w b key
  | None => Throw OutOfRange
  end.
Definition base_entries (w : world) (base : string) : outcome (list string) :=
  match w_baseDocs w !! base with
  | Some b => Ok (entries w b)
  | None => Throw OutOfRange
  end.

(** ** Building operators from an Input (include/NeoFOAM/core/input.hpp:13). *)
Inductive input := IDict (d : dict) | ITokens (t : tokenList).

(** The key lookup at the start of every create(...): a string from the
    dictionary, or the next token (the cursor is mutable, so a const Input& is
    advanced).  divOperator.hpp:33-35, laplacianOperator.hpp:33-35,
    surfaceInterpolation.hpp:38-41, faceNormalGradient.hpp:34-37. *)
Definition input_key (entry : string) (i : input) : outcome string * input :=
  match i with
  | IDict d =>
      (match dict_get TString d entry with
       | Ok (AString s) => Ok s
       | Ok _ => UB
       | Throw e => Throw e | Exit => Exit | UB => UB
       end, i)
  | ITokens t =>
      let '(r, t') := tl_next_tok TString t in
      (match r with
       | Ok (AString s) => Ok s
       | Ok _ => UB
       | Throw e => Throw e | Exit => Exit | UB => UB
       end, ITokens t')
  end.

(** Names registered by the code base: interpolation/linear.hpp:51,
    upwind.hpp:49; faceNormalGradient/uncorrected.hpp:42;
    operators/gaussGreenDiv.hpp:42, gaussGreenLaplacian.hpp:45. *)
Definition known_interpolation : list string := ["linear"; "upwind"].
Definition known_gradient : list string := ["uncorrected"].
Definition known_operator : list string := ["Gauss"].

Definition checked (known : list string) (r : outcome string) : outcome string :=
  let! k := r in if decide (k ∈ known) then Ok k else Exit.

(** surfaceInterpolation.hpp:34-45, 103-106 *)
Definition build_interpolation (i : input) : outcome string * input :=
  let '(r, i') := input_key "surfaceInterpolation" i in (checked known_interpolation r, i').
(** faceNormalGradient.hpp:30-41, 86-88 *)
Definition build_gradient (i : input) : outcome string * input :=
  let '(r, i') := input_key "faceNormalGradient" i in (checked known_gradient r, i').

(** divOperator.hpp:29-37 then gaussGreenDiv.hpp:48-50 *)
Definition create_div (i : input) : outcome (string * string) * input :=
  let '(r, i1) := input_key "DivOperator" i in
  match checked known_operator r with
  | Ok a => let '(r2, i2) := build_interpolation i1 in ((let! b := r2 in Ok (a, b)), i2)
  | Throw e => (Throw e, i1) | Exit => (Exit, i1) | UB => (UB, i1)
  end.
(** laplacianOperator.hpp:30-38 then gaussGreenLaplacian.hpp:51-54 (members are
    initialised in declaration order: interpolation l.97, gradient l.99) *)
Definition create_laplacian (i : input) : outcome (string * string * string) * input :=
  let '(r, i1) := input_key "LaplacianOperator" i in
  match checked known_operator r with
  | Ok a =>
      let '(r2, i2) := build_interpolation i1 in
      match r2 with
      | Ok b => let '(r3, i3) := build_gradient i2 in ((let! c := r3 in Ok (a, b, c)), i3)
      | Throw e => (Throw e, i2) | Exit => (Exit, i2) | UB => (UB, i2)
      end
  | Throw e => (Throw e, i1) | Exit => (Exit, i1) | UB => (UB, i1)
  end.

(** dict.subDict(section).get<TokenList>(scheme), copied into a local. *)
Definition scheme_tokens (d : dict) (section scheme : string) : outcome tokenList :=
  let! s := dict_subDict d section in
  let! v := dict_get TTokens s scheme in
  match v with ATokens l n => Ok (TokenList l n) | _ => UB end.

(** divOperator.hpp:169-186 build(input): works on copies; the second component
    is the caller's Input afterwards. *)
Definition div_build (fluxName fieldName : string) (i : input) : outcome (string * string) * input :=
  match i with
  | IDict d =>
      let dict := d in                                                       (* l.174: copy *)
      let schemeName := "div(" +:+ fluxName +:+ "," +:+ fieldName +:+ ")" in
      (let! tokens := scheme_tokens dict "divSchemes" schemeName in          (* l.176: copy *)
       (create_div (ITokens tokens)).1, i)
  | ITokens t =>
      let tokens := tl_copy t in                                             (* l.182: copy *)
      ((create_div (ITokens tokens)).1, i)
  end.

(** laplacianOperator.hpp:157-174 *)
Definition laplacian_build (gammaName fieldName : string) (i : input)
  : outcome (string * string * string) * input :=
  match i with
  | IDict d =>
      let dict := d in
      let schemeName := "laplacian(" +:+ gammaName +:+ "," +:+ fieldName +:+ ")" in
      (let! tokens := scheme_tokens dict "laplacianSchemes" schemeName in
       (create_laplacian (ITokens tokens)).1, i)
  | ITokens t =>
      let tokens := tl_copy t in
      ((create_laplacian (ITokens tokens)).1, i)
  end.

(** ** StencilDataBase (stencil/stencilDataBase.hpp, stencilDataBase.cpp)
    A stored shared_ptr is (type, object number). *)
Record stencilWorld := StencilWorld {
  sd_db : gmap string (nat * nat);   (* stencilDB_: type tag, object *)
  sd_next : nat;                     (* number of objects constructed so far *)
}.
Definition geometryTy := 0.
Definition sparsityTy := 1.

(** stencilDataBase.hpp:36-39 emplace *)
Definition sd_insert (db : gmap string (nat * nat)) (k : string) (v : nat * nat) : gmap string (nat * nat) :=
  match db !! k with Some _ => db | None => <[k := v]> db end.
(** stencilDataBase.cpp:16-19 *)
Definition sd_contains (db : gmap string (nat * nat)) (k : string) : bool :=
  match db !! k with Some _ => true | None => false end.
(** stencilDataBase.hpp:67-85 *)
Definition sd_get (t : nat) (db : gmap string (nat * nat)) (k : string) : outcome nat :=
  match db !! k with
  | None => Throw OutOfRange
  | Some (t', o) => if decide (t' = t) then Ok o else Throw BadAnyCast
  end.
(** sparsityPattern.cpp:20-28, geometryScheme.cpp:16-24: [t] the type, [k] the
    name; make_shared constructs a new object. *)
Definition readOrCreate (t : nat) (k : string) (w : stencilWorld) : outcome nat * stencilWorld :=
  let w1 := if sd_contains (sd_db w) k then w
            else StencilWorld (sd_insert (sd_db w) k (t, sd_next w)) (S (sd_next w)) in
  (sd_get t (sd_db w1) k, w1).
Definition geometryScheme_readOrCreate := readOrCreate geometryTy "GeometryScheme".
Definition sparsityPattern_readOrCreate := readOrCreate sparsityTy "SparsityPattern".

(** Histories on one mesh. *)
Inductive sop := SInsert (k : string) (v : nat * nat) | SGeometry | SSparsity.
Global Instance sop_eq_dec : EqDecision sop.
Proof. solve_decision. Defined.
Definition sd_step (w : stencilWorld) (o : sop) : stencilWorld :=
  match o with
  | SInsert k v => StencilWorld (sd_insert (sd_db w) k v) (sd_next w)
  | SGeometry => (geometryScheme_readOrCreate w).2
  | SSparsity => (sparsityPattern_readOrCreate w).2
  end.
Definition sd_run (w : stencilWorld) (os : list sop) : stencilWorld := foldl sd_step w os.
