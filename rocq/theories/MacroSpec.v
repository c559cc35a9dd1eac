(** What a type expression means, for any meaning of its parts, and where the placeholders are. *)
From Coq Require Import List Arith NArith Bool String.
From Verif Require Import MacroModel.
Import ListNotations.
Local Open Scope string_scope.
Local Open Scope list_scope.

(** a meaning: values for names and placeholders, and an operation per construct *)
Record meaning (V : Type) := mk_meaning {
  me_path : bool -> V -> V -> V; me_tuple : V -> V; me_infer : V; me_other : N -> list V -> V -> V;
  me_qnone : V; me_qas : V -> nat -> V; me_nil : V; me_cons : V -> V -> V; me_seg : string -> V -> V -> V;
  me_none : V; me_angle : V -> V; me_paren : V -> V; me_type : V -> V; me_life : string -> V;
  me_constraint : string -> V -> V; me_assoc : string -> V -> V; me_const : N -> V; me_trait : bool -> V -> V }.
Arguments mk_meaning {V}.

(** the meaning of a type; [known]: paths that have a meaning of their own *)
  Fixpoint den {V : Type} (M : meaning V) (known : bool -> qself -> segs -> option V) (t : ty) {struct t} : V :=
    match t with
    | TPath l q p => match known l q p with Some v => v | None => me_path V M l (den_q M known q) (den_segs M known p) end
    | TTuple ts => me_tuple V M (den_tys M known ts)
    | TInfer => me_infer V M
    | TOther n lts ts => me_other V M n (map (me_life V M) lts) (den_tys M known ts)
    end
  with den_q {V : Type} (M : meaning V) (known : bool -> qself -> segs -> option V) (q : qself) {struct q} : V := match q with QNone => me_qnone V M | QAs t n => me_qas V M (den M known t) n end
  with den_tys {V : Type} (M : meaning V) (known : bool -> qself -> segs -> option V) (ts : tys) {struct ts} : V := match ts with tnil => me_nil V M | tcons t r => me_cons V M (den M known t) (den_tys M known r) end
  with den_segs {V : Type} (M : meaning V) (known : bool -> qself -> segs -> option V) (p : segs) {struct p} : V := match p with snil => me_nil V M | scons i a r => me_seg V M i (den_pargs M known a) (den_segs M known r) end
  with den_pargs {V : Type} (M : meaning V) (known : bool -> qself -> segs -> option V) (a : pargs) {struct a} : V :=
    match a with PANone => me_none V M | PAAngle l => me_angle V M (den_args M known l) | PAParen ts => me_paren V M (den_tys M known ts) end
  with den_args {V : Type} (M : meaning V) (known : bool -> qself -> segs -> option V) (l : args) {struct l} : V := match l with anil => me_nil V M | acons a r => me_cons V M (den_arg M known a) (den_args M known r) end
  with den_arg {V : Type} (M : meaning V) (known : bool -> qself -> segs -> option V) (a : arg) {struct a} : V :=
    match a with
    | AType t => me_type V M (den M known t) | ALife s => me_life V M s
    | AConstraint i b => me_constraint V M i (den_bounds M known b)
    | AAssoc i t => me_assoc V M i (den M known t) | AOther n => me_const V M n
    end
  with den_bounds {V : Type} (M : meaning V) (known : bool -> qself -> segs -> option V) (b : bounds) {struct b} : V := match b with bnil => me_nil V M | bcons x r => me_cons V M (den_bound M known x) (den_bounds M known r) end
  with den_bound {V : Type} (M : meaning V) (known : bool -> qself -> segs -> option V) (b : bound) {struct b} : V := match b with BTrait l p => me_trait V M l (den_segs M known p) | BLife s => me_life V M s end.

(** no path has a meaning of its own *)
Definition plain {V} (l : bool) (q : qself) (p : segs) : option V := None.
(** the same meaning, with [_] read as [v] and every lifetime s as [f s] *)
Definition reading {V} (M : meaning V) (v : V) (f : string -> string) : meaning V :=
  mk_meaning (me_path V M) (me_tuple V M) v (me_other V M) (me_qnone V M) (me_qas V M) (me_nil V M) (me_cons V M) (me_seg V M)
    (me_none V M) (me_angle V M) (me_paren V M) (me_type V M) (fun s => me_life V M (f s))
    (me_constraint V M) (me_assoc V M) (me_const V M) (me_trait V M).

(** Placeholders: [hi] whether [_] is one, [hl] which lifetimes and [hp] which paths look like
    one; [ex] those that are written as they should be. *)
  (** none anywhere *)
  Fixpoint clean (hi : bool) (hl : string -> bool) (hp : bool -> qself -> segs -> bool) (t : ty) {struct t} : bool :=
    match t with
    | TPath l q p => negb (hp l q p) && (clean_q hi hl hp q && clean_segs hi hl hp p)
    | TTuple ts => clean_tys hi hl hp ts
    | TInfer => negb hi
    | TOther _ lts ts => forallb (fun s => negb (hl s)) lts && clean_tys hi hl hp ts
    end
  with clean_q (hi : bool) (hl : string -> bool) (hp : bool -> qself -> segs -> bool) (q : qself) {struct q} : bool := match q with QNone => true | QAs t _ => clean hi hl hp t end
  with clean_tys (hi : bool) (hl : string -> bool) (hp : bool -> qself -> segs -> bool) (ts : tys) {struct ts} : bool := match ts with tnil => true | tcons t r => clean hi hl hp t && clean_tys hi hl hp r end
  with clean_segs (hi : bool) (hl : string -> bool) (hp : bool -> qself -> segs -> bool) (p : segs) {struct p} : bool := match p with snil => true | scons _ a r => clean_pargs hi hl hp a && clean_segs hi hl hp r end
  with clean_pargs (hi : bool) (hl : string -> bool) (hp : bool -> qself -> segs -> bool) (a : pargs) {struct a} : bool := match a with PANone => true | PAAngle l => clean_args hi hl hp l | PAParen ts => clean_tys hi hl hp ts end
  with clean_args (hi : bool) (hl : string -> bool) (hp : bool -> qself -> segs -> bool) (l : args) {struct l} : bool := match l with anil => true | acons a r => clean_arg hi hl hp a && clean_args hi hl hp r end
  with clean_arg (hi : bool) (hl : string -> bool) (hp : bool -> qself -> segs -> bool) (a : arg) {struct a} : bool :=
    match a with
    | AType t => clean hi hl hp t | ALife s => negb (hl s) | AConstraint _ b => clean_bounds hi hl hp b | AAssoc _ t => clean hi hl hp t | AOther _ => true
    end
  with clean_bounds (hi : bool) (hl : string -> bool) (hp : bool -> qself -> segs -> bool) (b : bounds) {struct b} : bool := match b with bnil => true | bcons x r => clean_bound hi hl hp x && clean_bounds hi hl hp r end
  with clean_bound (hi : bool) (hl : string -> bool) (hp : bool -> qself -> segs -> bool) (b : bound) {struct b} : bool := match b with BTrait _ p => clean_segs hi hl hp p | BLife s => negb (hl s) end.
  (** none outside paths, tuples, angle brackets and the arguments of bounds, and all
      written as they should be *)
  Fixpoint open (hi : bool) (hl : string -> bool) (hp ex : bool -> qself -> segs -> bool) (t : ty) {struct t} : bool :=
    match t with
    | TPath l q p => if hp l q p then ex l q p else clean_q hi hl hp q && open_segs hi hl hp ex p
    | TTuple ts => open_tys hi hl hp ex ts
    | TInfer => true
    | TOther _ lts ts => forallb (fun s => negb (hl s)) lts && clean_tys hi hl hp ts
    end
  with open_tys (hi : bool) (hl : string -> bool) (hp ex : bool -> qself -> segs -> bool) (ts : tys) {struct ts} : bool := match ts with tnil => true | tcons t r => open hi hl hp ex t && open_tys hi hl hp ex r end
  with open_segs (hi : bool) (hl : string -> bool) (hp ex : bool -> qself -> segs -> bool) (p : segs) {struct p} : bool := match p with snil => true | scons _ a r => open_pargs hi hl hp ex a && open_segs hi hl hp ex r end
  with open_pargs (hi : bool) (hl : string -> bool) (hp ex : bool -> qself -> segs -> bool) (a : pargs) {struct a} : bool := match a with PANone => true | PAAngle l => open_args hi hl hp ex l | PAParen ts => clean_tys hi hl hp ts end
  with open_args (hi : bool) (hl : string -> bool) (hp ex : bool -> qself -> segs -> bool) (l : args) {struct l} : bool := match l with anil => true | acons a r => open_arg hi hl hp ex a && open_args hi hl hp ex r end
  with open_arg (hi : bool) (hl : string -> bool) (hp ex : bool -> qself -> segs -> bool) (a : arg) {struct a} : bool :=
    match a with
    | AType t => open hi hl hp ex t | ALife _ => true | AConstraint _ b => open_bounds hi hl hp ex b | AAssoc _ t => open hi hl hp ex t | AOther _ => true
    end
  with open_bounds (hi : bool) (hl : string -> bool) (hp ex : bool -> qself -> segs -> bool) (b : bounds) {struct b} : bool := match b with bnil => true | bcons x r => open_bound hi hl hp ex x && open_bounds hi hl hp ex r end
  with open_bound (hi : bool) (hl : string -> bool) (hp ex : bool -> qself -> segs -> bool) (b : bound) {struct b} : bool := match b with BTrait _ p => open_segs hi hl hp ex p | BLife s => negb (hl s) end.

(** the placeholders of [Kind!]: [_] and ['_] *)
Definition no_infer : ty -> bool := clean true (fun s => String.eqb s "_") (fun _ _ _ => false).
Definition infer_open : ty -> bool := open true (fun s => String.eqb s "_") (fun _ _ _ => false) (fun _ _ _ => false).
Definition to_static (s : string) : string := if String.eqb s "_" then "static" else s.

(** paths of the two identifiers D and F, in whatever way they are written *)
Definition like_field (d : string) (l : bool) (q : qself) (p : segs) : bool :=
  match q, p with QNone, scons i _ (scons j _ snil) => String.eqb i d && String.eqb j "F" | _, _ => false end.
(** [D::F], written so *)
Definition exact_field (d : string) (l : bool) (q : qself) (p : segs) : bool :=
  match l, q, p with false, QNone, scons i PANone (scons j PANone snil) => String.eqb i d && String.eqb j "F" | _, _, _ => false end.
Definition field_known {V} (d : string) (v : V) (l : bool) (q : qself) (p : segs) : option V :=
  if exact_field d l q p then Some v else None.
Definition no_field (d : string) : ty -> bool := clean false (fun _ => false) (like_field d).
Definition field_open (d : string) : ty -> bool := open false (fun _ => false) (like_field d) (exact_field d).
Definition field_open_bounds (d : string) : bounds -> bool := open_bounds false (fun _ => false) (like_field d) (exact_field d).

(** ** Names *)
(** names that type paths begin with; a path with leading [::] names a crate, not a parameter *)
Definition heads_meaning : meaning (option string * list string) :=
  let two (a b : option string * list string) := (None, snd a ++ snd b) in
  mk_meaning (fun l q p => (None, (if l then [] else match fst q, fst p with None, Some i => [i] | _, _ => [] end) ++ snd q ++ snd p))
    (fun a => (None, snd a)) (None, []) (fun _ _ a => (None, snd a))
    (None, []) (fun a _ => (Some "<", snd a)) (None, []) two (fun i a r => (Some i, snd a ++ snd r))
    (None, []) (fun a => (None, snd a)) (fun a => (None, snd a)) (fun a => (None, snd a)) (fun _ => (None, []))
    (fun _ b => (None, snd b)) (fun _ t => (None, snd t)) (fun _ => (None, [])) (fun _ p => (None, snd p)).
Definition heads (t : ty) : list string := snd (den heads_meaning plain t).
Definition heads_arg (a : arg) : list string := snd (den_arg heads_meaning plain a).
Definition heads_bounds (b : bounds) : list string := snd (den_bounds heads_meaning plain b).

(** the name a parameter introduces, if a type or constant *)
Definition binds (p : gparam) : list string := match p with GPType _ i _ _ | GPConst i _ => [i] | GPLife _ _ => [] end.
Definition binds_life (p : gparam) : list string := match p with GPLife s _ => [s] | _ => [] end.

(** an argument with one name replaced by a type, wherever it stands as a type by itself or in
    angle brackets *)
  Definition is_name (x : string) (l : bool) (q : qself) (p : segs) : bool :=
    match l, q, p with false, QNone, scons i PANone snil => String.eqb i x | _, _, _ => false end.
  Fixpoint inst (x : string) (u : ty) (t : ty) {struct t} : ty :=
    match t with
    | TPath l q p => if is_name x l q p then u else TPath l (inst_q x u q) (inst_segs x u p)
    | TTuple ts => TTuple (inst_tys x u ts)
    | TInfer => TInfer
    | TOther n lts ts => TOther n lts (inst_tys x u ts)
    end
  with inst_q (x : string) (u : ty) (q : qself) {struct q} : qself := match q with QNone => QNone | QAs t n => QAs (inst x u t) n end
  with inst_tys (x : string) (u : ty) (ts : tys) {struct ts} : tys := match ts with tnil => tnil | tcons t r => tcons (inst x u t) (inst_tys x u r) end
  with inst_segs (x : string) (u : ty) (p : segs) {struct p} : segs := match p with snil => snil | scons i a r => scons i (inst_pargs x u a) (inst_segs x u r) end
  with inst_pargs (x : string) (u : ty) (a : pargs) {struct a} : pargs := match a with PANone => PANone | PAAngle l => PAAngle (inst_args x u l) | PAParen ts => PAParen (inst_tys x u ts) end
  with inst_args (x : string) (u : ty) (l : args) {struct l} : args := match l with anil => anil | acons a r => acons (inst_arg x u a) (inst_args x u r) end
  with inst_arg (x : string) (u : ty) (a : arg) {struct a} : arg :=
    match a with
    | AType t => AType (inst x u t) | ALife s => ALife s | AConstraint i b => AConstraint i (inst_bounds x u b)
    | AAssoc i t => AAssoc i (inst x u t) | AOther n => AOther n
    end
  with inst_bounds (x : string) (u : ty) (b : bounds) {struct b} : bounds := match b with bnil => bnil | bcons y r => bcons (inst_bound x u y) (inst_bounds x u r) end
  with inst_bound (x : string) (u : ty) (b : bound) {struct b} : bound := match b with BTrait l p => BTrait l (inst_segs x u p) | BLife s => BLife s end.

(** ** The driver parameter *)
Fixpoint seg_list (p : segs) : list (string * pargs) := match p with snil => [] | scons i a r => (i, a) :: seg_list r end.
Fixpoint arg_list (l : args) : list arg := match l with anil => [] | acons a r => a :: arg_list r end.
(** the first bound on a trait whose path ends in Driver has these arguments *)
Inductive driver_bound : bounds -> pargs -> Prop :=
| db_here l p r s a : seg_list p = s ++ [("Driver", a)] -> driver_bound (bcons (BTrait l p) r) a
| db_trait l p r a : (forall s x, seg_list p <> s ++ [("Driver", x)]) -> driver_bound r a -> driver_bound (bcons (BTrait l p) r) a
| db_life s r a : driver_bound r a -> driver_bound (bcons (BLife s) r) a.
(** s is the only lifetime among the arguments *)
Definition only_life (l : args) (s : string) : Prop :=
  exists a b, arg_list l = a ++ ALife s :: b /\ forall x, ~ In (ALife x) (a ++ b).
(** [#[ragu(.. driver ..)]] is among the attributes *)
Definition marked (at_ : list attribute) : Prop :=
  exists a toks, In a at_ /\ at_path a = "ragu" /\ at_tokens a = Some toks /\ In "driver" toks.
Definition unmarked (p : gparam) : Prop := match p with GPType at_ _ _ _ => ~ marked at_ | _ => True end.
