(** Types and generic parameters in the macros of crates/ragu_macros/src: substitution.rs,
    helpers.rs:8-113, proc/kind.rs:33-47, derive/mod.rs:10-43, derive/gadget.rs:14-58,67-90,206-223.
    The syntax trees of [syn] are cut down to what these functions look at: spans are absent,
    a type that is neither a path, a tuple nor [_] is a number with its lifetimes and the types
    in it, generic arguments of associated types are absent. *)
From Coq Require Import List Arith NArith Bool String.
Import ListNotations.
Local Open Scope string_scope.

Inductive ty :=
| TPath (lead : bool) (q : qself) (p : segs)      (* leading [::], [<T as ..>], segments *)
| TTuple (l : tys)
| TInfer                                          (* [_] *)
| TOther (tag : N) (lts : list string) (l : tys)  (* references, arrays, slices, pointers, ... *)
with qself := QNone | QAs (t : ty) (pos : nat)
with tys := tnil | tcons (t : ty) (r : tys)
with segs := snil | scons (i : string) (a : pargs) (r : segs)
with pargs := PANone | PAAngle (l : args) | PAParen (l : tys)
with args := anil | acons (a : arg) (r : args)
with arg := AType (t : ty) | ALife (s : string) | AConstraint (i : string) (b : bounds) | AAssoc (i : string) (t : ty) | AOther (n : N)
with bounds := bnil | bcons (b : bound) (r : bounds)
with bound := BTrait (lead : bool) (p : segs) | BLife (s : string).

(** substitution.rs:6-16 [Strategy]; [Some] is "replaced, stop here".  What the code writes
    over a lifetime or a path is the contents of the [Some]. *)
Record strategy := mk_strategy {
  st_path : bool -> qself -> segs -> option (bool * qself * segs);
  st_ty : ty -> option ty;
  st_lt : string -> option string }.

(** substitution.rs:18-95 [Substitution] *)
  Definition sub_lt (st : strategy) (s : string) : string := match st_lt st s with Some s' => s' | None => s end.
  (** 64-82 *)
  Fixpoint sub_ty (st : strategy) (t : ty) {struct t} : ty :=
    match st_ty st t with
    | Some t' => t'
    | None =>
        match t with
        | TPath l q p =>                             (* 47-61 *)
            match st_path st l q p with
            | Some (l', q', p') => TPath l' q' p'
            | None => TPath l q (sub_segs st p)
            end
        | TTuple ts => TTuple (sub_tys st ts)
        | _ => t
        end
    end
  with sub_tys (st : strategy) (ts : tys) {struct ts} : tys :=
    match ts with tnil => tnil | tcons t r => tcons (sub_ty st t) (sub_tys st r) end
  with sub_segs (st : strategy) (p : segs) {struct p} : segs :=
    match p with
    | snil => snil
    | scons i a r => scons i (match a with PAAngle l => PAAngle (sub_args st l) | _ => a end) (sub_segs st r)
    end
  with sub_args (st : strategy) (l : args) {struct l} : args :=
    match l with anil => anil | acons a r => acons (sub_arg st a) (sub_args st r) end
  with sub_arg (st : strategy) (a : arg) {struct a} : arg :=                    (* 28-45 *)
    match a with
    | AType t => AType (sub_ty st t)
    | ALife s => ALife (sub_lt st s)
    | AConstraint i b => AConstraint i (sub_bounds st b)
    | AAssoc i t => AAssoc i (sub_ty st t)
    | AOther n => AOther n
    end
  with sub_bounds (st : strategy) (b : bounds) {struct b} : bounds :=
    match b with bnil => bnil | bcons x r => bcons (sub_bound st x) (sub_bounds st r) end
  with sub_bound (st : strategy) (b : bound) {struct b} : bound :=              (* 84-95 *)
    match b with BTrait l p => BTrait l (sub_segs st p) | BLife s => BLife s end.

(** the path of one identifier *)
Definition ident_path (i : string) : segs := scons i PANone snil.
Definition ident_ty (i : string) : ty := TPath false QNone (ident_path i).
(** [::core::marker::PhantomData<f>] *)
Definition phantom (f : ty) : ty :=
  TPath true QNone (scons "core" PANone (scons "marker" PANone
    (scons "PhantomData" (PAAngle (acons (AType f) anil)) snil))).

(** substitution.rs:99-129 [replace_inferences] *)
Definition inference_strategy (field : ty) : strategy :=
  mk_strategy (fun _ _ _ => None)
    (fun t => match t with TInfer => Some (phantom field) | _ => None end)
    (fun s => if String.eqb s "_" then Some "static" else None).
Definition replace_inferences (field t : ty) : ty := sub_ty (inference_strategy field) t.

(** proc/kind.rs:33-47 [evaluate]; [core] are the segments of the path to [ragu_core] *)
Fixpoint segs_app (a b : segs) : segs := match a with snil => b | scons i x r => scons i x (segs_app r b) end.
Definition segs_len (p : segs) : nat := (fix go p := match p with snil => 0 | scons _ _ r => S (go r) end) p.
Definition kind_macro (core : segs) (f : ty) (cast : bool) (path : ty) : ty :=
  let subst := replace_inferences f path in
  if cast then subst
  else TPath true (QAs subst (segs_len core + 2))
         (segs_app core (scons "gadgets" PANone (scons "Gadget" (PAAngle (acons (ALife "static") (acons (AType (phantom f)) anil)))
            (scons "Kind" PANone snil)))).

(** substitution.rs:138-155: [D::F] by its two identifiers; arguments and a leading [::] are
    not looked at *)
Definition is_driver_field (d : string) (q : qself) (p : segs) : bool :=
  match q, p with
  | QNone, scons i _ (scons j _ snil) => String.eqb i d && String.eqb j "F"
  | _, _ => false
  end.
Definition driver_strategy (d df : string) : strategy :=
  mk_strategy (fun _ q p => if is_driver_field d q p then Some (false, QNone, ident_path df) else None)
    (fun _ => None) (fun _ => None).

(** attributes: the path and, for [#[path(..)]], the identifiers among the tokens *)
Record attribute := mk_attribute { at_path : string; at_tokens : option (list string) }.
(** helpers.rs:8-19 *)
Definition attr_is (a : attribute) (needle : string) : bool :=
  String.eqb (at_path a) "ragu" &&
  match at_tokens a with Some l => existsb (fun i => String.eqb i needle) l | None => false end.

(** generic parameters: a type with its attributes, bounds and default, a lifetime, a constant *)
Inductive gparam :=
| GPType (attrs : list attribute) (i : string) (b : bounds) (default : option ty)
| GPLife (s : string) (bs : list string)
| GPConst (i : string) (t : ty).

(** substitution.rs:132-173 *)
Definition replace_driver_field_in_generic_param (d df : string) (p : gparam) : gparam :=
  match p with
  | GPType at_ i b def => GPType at_ i (sub_bounds (driver_strategy d df) b) (option_map (sub_ty (driver_strategy d df)) def)
  | _ => p
  end.

(** helpers.rs:42-52 *)
Record gdriver := mk_gdriver { gd_ident : string; gd_life : string }.
Definition gdriver_default : gdriver := mk_gdriver "D" "dr".
Fixpoint last_seg (p : segs) : option (string * pargs) :=
  match p with snil => None | scons i a snil => Some (i, a) | scons _ _ r => last_seg r end.
Fixpoint lifetimes (l : args) : list string :=
  match l with anil => [] | acons (ALife s) r => s :: lifetimes r | acons _ r => lifetimes r end.
(** helpers.rs:70-104 [extract_from_param]; [None] is an error *)
Fixpoint extract_bounds (i : string) (b : bounds) : option gdriver :=
  match b with
  | bnil => None
  | bcons (BTrait _ p) r =>
      match last_seg p with
      | Some (j, a) =>
          if String.eqb j "Driver" then
            match a with
            | PAAngle l => match lifetimes l with [s] => Some (mk_gdriver i s) | _ => None end
            | _ => None
            end
          else extract_bounds i r
      | None => extract_bounds i r
      end
  | bcons _ r => extract_bounds i r
  end.
(** helpers.rs:55-68 [extract] *)
Fixpoint extract (g : list gparam) : option gdriver :=
  match g with
  | [] => Some gdriver_default
  | GPType at_ i b _ :: r => if existsb (fun a => attr_is a "driver") at_ then extract_bounds i b else extract r
  | _ :: r => extract r
  end.

(** [ty_generics] of syn's [split_for_impl], parsed again: a constant parameter reads as a type *)
Definition param_arg (p : gparam) : arg :=
  match p with GPType _ i _ _ => AType (ident_ty i) | GPLife s _ => ALife s | GPConst i _ => AType (ident_ty i) end.
Definition ty_generics (g : list gparam) : list arg := map param_arg g.

(** derive/mod.rs:11-23 [is_ty], [is_lt] *)
Definition is_ty (d : gdriver) (t : ty) : bool :=
  match t with
  | TPath _ _ p => match last_seg p with Some (i, _) => String.eqb i (gd_ident d) | None => false end
  | _ => false
  end.
Definition is_lt (d : gdriver) (s : string) : bool := String.eqb (gd_life d) s.
Definition map_args (d : gdriver) (onty : ty) (onlt : string) (l : list arg) : list arg :=
  map (fun a => match a with
                | AType t => if is_ty d t then AType onty else a
                | ALife s => if is_lt d s then ALife onlt else a
                | _ => a
                end) l.
(** derive/mod.rs:25-42 *)
Definition kind_subst_arguments (d : gdriver) : list arg -> list arg :=
  map_args d (phantom (ident_ty "DriverField")) "static".
(** [<D as core::drivers::Driver<'dr>>::F] *)
Definition driver_f (core : segs) (d : gdriver) : ty :=
  TPath true (QAs (ident_ty (gd_ident d)) (segs_len core + 2))
    (segs_app core (scons "drivers" PANone (scons "Driver" (PAAngle (acons (ALife (gd_life d)) anil)) (scons "F" PANone snil)))).
(** derive/gadget.rs:22-36 *)
Definition kind_arguments (core : segs) (d : gdriver) : list arg -> list arg := map_args d (phantom (driver_f core d)) "static".
(** derive/gadget.rs:38-57 *)
Definition rebind_arguments (d : gdriver) : list arg -> list arg := map_args d (ident_ty (gd_ident d)) (gd_life d).

(** derive/gadget.rs:80-90 (the driver's attribute) and 206-223 [gadget_kind_generic_params];
    the same in gadgetwrite.rs:39-50,92-113 *)
Definition strip_attr (d : gdriver) (p : gparam) : gparam :=
  match p with
  | GPType at_ i b def => if String.eqb i (gd_ident d) then GPType (filter (fun a => negb (attr_is a "driver")) at_) i b def else p
  | _ => p
  end.
Definition keeps (d : gdriver) (p : gparam) : bool :=
  match p with
  | GPType _ i _ _ => negb (String.eqb i (gd_ident d))
  | GPLife s _ => negb (String.eqb s (gd_life d))
  | GPConst _ _ => true
  end.
Definition ff_field : bounds := bcons (BTrait true (scons "ff" PANone (scons "Field" PANone snil))) bnil.
Definition kind_params (d : gdriver) (g : list gparam) : list gparam :=
  map (replace_driver_field_in_generic_param (gd_ident d) "DriverField") (filter (keeps d) (map (strip_attr d) g))
  ++ [GPType [] "DriverField" ff_field None].
