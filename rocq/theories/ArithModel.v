(** Model of the scalar helpers of [crates/ragu_arithmetic/src/{coeff,util}.rs]
    and of the linear-expression builders of [ragu_core] / [ragu_circuits]. *)
From Coq Require Import List Arith NArith Bool.
From Verif Require Import FieldDef.
Import ListNotations.

(** [ff::Field::double] / [square] *)
Definition dbl {F : Field} (x : F) : F := fadd x x.
Definition sqr {F : Field} (x : F) : F := fmul x x.

(** coeff.rs:11-24, enum [Coeff]. *)
Inductive Coeff (F : Field) :=
| CZero | COne | CTwo | CNegOne
| CArb (a : F)
| CNegArb (a : F).
Arguments CZero {F}. Arguments COne {F}. Arguments CTwo {F}. Arguments CNegOne {F}.
Arguments CArb {F} a. Arguments CNegArb {F} a.

Section CoeffOps.
  Variable F : Field.
  Implicit Types c d : Coeff F.

  (** coeff.rs:28-34 [Coeff::is_zero] *)
  Definition c_is_zero c : bool :=
    match c with
    | CZero => true
    | CArb v | CNegArb v => feqb v f0
    | _ => false
    end.

  (** coeff.rs:37-46 [Coeff::value] *)
  Definition c_value c : F :=
    match c with
    | CZero => f0
    | COne => f1
    | CTwo => dbl f1
    | CNegOne => fopp f1
    | CArb v => v
    | CNegArb v => fopp v
    end.

  (** coeff.rs:55-74 [Mul for Coeff]; the arms are in source order. *)
  Definition c_mul c d : Coeff F :=
    match c, d with
    | CZero, _ => CZero
    | _, CZero => CZero
    | COne, o => o
    | o, COne => o
    | CTwo, a => CArb (dbl (c_value a))
    | a, CTwo => CArb (dbl (c_value a))
    | CNegOne, CNegOne => COne
    | CNegOne, CArb a => CNegArb a
    | CArb a, CNegOne => CNegArb a
    | CNegOne, CNegArb a => CArb a
    | CNegArb a, CNegOne => CArb a
    | CArb a, CArb b => CArb (fmul a b)
    | CNegArb a, CNegArb b => CArb (fmul a b)
    | CArb a, CNegArb b => CNegArb (fmul a b)
    | CNegArb b, CArb a => CNegArb (fmul a b)
    end.

  (** coeff.rs:76-117 [Add for Coeff]; the arms are in source order. *)
  Definition c_add c d : Coeff F :=
    match c, d with
    | CZero, o => o
    | o, CZero => o
    | COne, COne => CTwo
    | COne, CNegOne => CZero
    | CNegOne, COne => CZero
    | CNegOne, CNegOne => CArb (fopp (dbl f1))
    | CTwo, CNegOne => COne
    | CNegOne, CTwo => COne
    | CTwo, a => CArb (fadd (c_value a) (dbl f1))
    | a, CTwo => CArb (fadd (c_value a) (dbl f1))
    | COne, CArb a => CArb (fadd a f1)
    | CArb a, COne => CArb (fadd a f1)
    | CNegOne, CArb a => CArb (fsub a f1)
    | CArb a, CNegOne => CArb (fsub a f1)
    | COne, CNegArb a => CArb (fsub f1 a)
    | CNegArb a, COne => CArb (fsub f1 a)
    | CNegOne, CNegArb a => CNegArb (fadd f1 a)
    | CNegArb a, CNegOne => CNegArb (fadd f1 a)
    | CArb a, CArb b => CArb (fadd a b)
    | CNegArb a, CNegArb b => CNegArb (fadd a b)
    | CArb a, CNegArb b => CArb (fsub a b)
    | CNegArb b, CArb a => CArb (fsub a b)
    end.
End CoeffOps.
Arguments c_is_zero {F} c. Arguments c_value {F} c.
Arguments c_mul {F} c d. Arguments c_add {F} c d.

(** One call on a [LinearExpression] (drivers/linexp.rs:19-45). *)
Inductive lcall (F : Field) (W : Type) :=
| LTerm (w : W) (c : Coeff F)            (* add_term *)
| LGain (c : Coeff F)                    (* gain *)
| LAdd (w : W)                           (* add, default method, l.37-39 *)
| LSub (w : W)                           (* sub, default method, l.42-44 *)
| LExtend (ts : list (W * Coeff F)).     (* extend, default method, l.29-34 *)
Arguments LTerm {F W} w c. Arguments LGain {F W} c. Arguments LAdd {F W} w.
Arguments LSub {F W} w. Arguments LExtend {F W} ts.

(** The default methods of the trait, for an arbitrary implementation given by
    its [add_term] and [gain] (drivers/linexp.rs:29-44). *)
Section LinTrait.
  Variables (F : Field) (W L : Type).
  Variable add_term : L -> W -> Coeff F -> L.
  Variable gain : L -> Coeff F -> L.
  Definition lin_step (l : L) (op : lcall F W) : L :=
    match op with
    | LTerm w c => add_term l w c
    | LGain c => gain l c
    | LAdd w => add_term l w COne
    | LSub w => add_term l w CNegOne
    | LExtend ts => fold_left (fun l t => add_term l (fst t) (snd t)) ts l
    end.
  Definition lin_run (ops : list (lcall F W)) (l : L) : L := fold_left lin_step ops l.
End LinTrait.
Arguments lin_step {F W L} add_term gain l op.
Arguments lin_run {F W L} add_term gain ops l.

Section DirectSum.
  Variable F : Field.
  (** drivers/linexp.rs:60-66 [DirectSum] *)
  Record dsum := mk_dsum { ds_value : F; ds_gain : Coeff F }.
  (** drivers/linexp.rs:81-88 *)
  Definition ds_default := mk_dsum f0 COne.
  (** drivers/linexp.rs:91-102 *)
  Definition ds_add_term (s : dsum) (wire : F) (coeff : Coeff F) : dsum :=
    let v := ds_value s in
    mk_dsum
      (match c_mul coeff (ds_gain s) with
       | CZero => v
       | COne => fadd v wire
       | CTwo => fadd v (dbl wire)
       | CNegOne => fsub v wire
       | CArb c => fadd v (fmul wire c)
       | CNegArb c => fsub v (fmul wire c)
       end) (ds_gain s).
  (** drivers/linexp.rs:104-107 *)
  Definition ds_do_gain (s : dsum) (c : Coeff F) : dsum :=
    mk_dsum (ds_value s) (c_mul (ds_gain s) c).

  (** s/common.rs:60-63 [WireEval] *)
  Inductive wire_eval := WEValue (v : F) | WEOne.
  (** s/common.rs:73-92 [WireEvalSum] *)
  Record wesum := mk_wesum { we_value : F; we_one : F; we_gain : Coeff F }.
  Definition we_new (one : F) := mk_wesum f0 one COne.
  (** s/common.rs:95-101 *)
  Definition we_add_term (s : wesum) (w : wire_eval) (c : Coeff F) : wesum :=
    mk_wesum
      (fadd (we_value s)
        (fmul (match w with WEValue v => v | WEOne => we_one s end)
              (c_value (c_mul c (we_gain s)))))
      (we_one s) (we_gain s).
  (** s/common.rs:103-106 *)
  Definition we_do_gain (s : wesum) (c : Coeff F) : wesum :=
    mk_wesum (we_value s) (we_one s) (c_mul (we_gain s) c).
End DirectSum.
Arguments ds_value {F} d. Arguments ds_gain {F} d. Arguments ds_default {F}.
Arguments ds_add_term {F} s wire coeff. Arguments ds_do_gain {F} s c.
Arguments WEValue {F} v. Arguments WEOne {F}.
Arguments we_value {F} w. Arguments we_one {F} w. Arguments we_gain {F} w.
Arguments we_new {F} one. Arguments we_add_term {F} s w c. Arguments we_do_gain {F} s c.

Section Util.
  Variable F : Field.

  (** util.rs:30-40 [eval]: Horner from the top coefficient down. *)
  Definition eval (coeffs : list F) (x : F) : F :=
    fold_left (fun result coeff => fadd (fmul result x) coeff) (rev coeffs) f0.

  (** util.rs:48-63 [dot]; [None] models the length assertion failing. *)
  Definition dot (a b : list F) : option F :=
    if Nat.eqb (length a) (length b)
    then Some (fold_left fadd (map (fun p => fmul (fst p) (snd p)) (combine a b)) f0)
    else None.

  (** util.rs:65-88, the closure of [factor_iter_inner] run to exhaustion on the
      reversed coefficients; [nb] is the negated point (l.69). *)
  Fixpoint factor_go (nb tmp : F) (a : list F) : list F :=
    match a with
    | [] => []
    | current :: rest =>
        match rest with
        | [] => []                        (* l.80: constant term discarded *)
        | _ => let lead := fsub current tmp in
               lead :: factor_go nb (fmul lead nb) rest
        end
    end.
  (** util.rs:98-106 [factor_iter]; [None] models the panic of l.72. *)
  Definition factor_iter (a : list F) (b : F) : option (list F) :=
    match a with [] => None | _ => Some (factor_go (fopp b) f0 (rev a)) end.
  (** util.rs:115-122 [factor] *)
  Definition factor (a : list F) (b : F) : option (list F) :=
    match factor_iter a b with None => None | Some r => Some (rev r) end.

  (** util.rs:311-319, loop of [geosum] while m > 0, by the binary digits of m *)
  Fixpoint geo_loop (r block sum step : F) (m : positive) : F :=
    match m with
    | xH => fadd sum (fmul step block)
    | xO m' => geo_loop (sqr r) (fadd block (fmul r block)) sum step m'
    | xI m' => geo_loop (sqr r) (fadd block (fmul r block))
                        (fadd sum (fmul step block)) (fmul step r) m'
    end.
  (** util.rs:307-321 [geosum] *)
  Definition geosum (r : F) (m : N) : F :=
    match m with N0 => f0 | Npos p => geo_loop r f1 f0 f1 p end.
End Util.
Arguments eval {F} coeffs x. Arguments dot {F} a b.
Arguments factor_go {F} nb tmp a. Arguments factor_iter {F} a b. Arguments factor {F} a b.
Arguments geo_loop {F} r block sum step m. Arguments geosum {F} r m.
