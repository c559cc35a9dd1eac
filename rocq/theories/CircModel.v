(** Circuit programs and the drivers that interpret them
    (crates/ragu_circuits/src/{raw,metrics,floor_planner,trace,ky,horner}.rs and s/).

    A Rust circuit is code generic over the [Driver] trait; its driver calls may
    not depend on wire values (the structure evaluators run with
    [MaybeKind = Empty]).  The model therefore takes the finite tree of driver
    calls as data ([prog]).  Witness closures are replaced by the values they
    return for one fixed witness; a closure returning [Err] is not modelled.
    Wires are named by position in the local environment of the routine: the
    inputs first, then every wire returned by a driver call, in order. *)
From Coq Require Import List Arith Lia Bool.
From Verif Require Import FieldDef ArithModel FFTModel SparseModel.
Import ListNotations.

(** [Driver::ONE] or the i-th wire of the local environment. *)
Inductive wref := WOne | WVar (i : nat).

(** Driver calls (crates/ragu_core/src/drivers.rs: gate, mul, alloc, add,
    enforce_zero, routine), plus [Clone]/[Drop] of wire handles, which only the
    sy evaluator observes.  [PRoutine known ins body outs k]: [Driver::routine]
    with the routine's [execute] being [body]; [known] says which [Prediction]
    variant [predict] returns.  Default methods ([constant], [enforce_equal])
    reduce to [add]/[enforce_zero]. *)
Inductive prog (F : Field) :=
| PEnd
| PGate (a b c d : F) (k : prog F)
| PMul (a b c : F) (k : prog F)
| PAlloc (v : F) (k : prog F)
| PAdd (lc : list (lcall F wref)) (k : prog F)
| PEnforce (lc : list (lcall F wref)) (k : prog F)
| PClone (w : wref) (k : prog F)
| PDrop (i : nat) (k : prog F)
| PRoutine (known : bool) (ins : list wref) (body : prog F) (outs : list wref) (k : prog F).
Arguments PEnd {F}. Arguments PGate {F}. Arguments PMul {F}. Arguments PAlloc {F}.
Arguments PAdd {F}. Arguments PEnforce {F}. Arguments PClone {F}. Arguments PDrop {F}.
Arguments PRoutine {F}.

(** substitution of wires in a linear expression call *)
Definition lc_map {F : Field} {W W' : Type} (f : W -> W') (op : lcall F W) : lcall F W' :=
  match op with
  | LTerm w c => LTerm (f w) c
  | LGain c => LGain c
  | LAdd w => LAdd (f w)
  | LSub w => LSub (f w)
  | LExtend ts => LExtend (map (fun t => (f (fst t), snd t)) ts)
  end.

(** sequencing of programs: [prog_app p q] runs p, then q in the same scope. *)
Fixpoint prog_app {F : Field} (p q : prog F) : prog F :=
  match p with
  | PEnd => q
  | PGate a b c d k => PGate a b c d (prog_app k q)
  | PMul a b c k => PMul a b c (prog_app k q)
  | PAlloc v k => PAlloc v (prog_app k q)
  | PAdd lc k => PAdd lc (prog_app k q)
  | PEnforce lc k => PEnforce lc (prog_app k q)
  | PClone w k => PClone w (prog_app k q)
  | PDrop i k => PDrop i (prog_app k q)
  | PRoutine b i body o k => PRoutine b i body o (prog_app k q)
  end.

(** raw.rs:184-215 [orchestrate], step 3 and 4: one [enforce_zero] per output
    in order, then ONE. *)
Fixpoint enforce_outputs {F : Field} (outs : list wref) : prog F :=
  match outs with
  | [] => PEnforce [LAdd WOne] PEnd
  | o :: r => PEnforce [LAdd o] (enforce_outputs r)
  end.
(** raw.rs:184-215 [orchestrate]: SYSTEM gate (its wires are environment
    entries 0..3), circuit body including [output.write], bindings. *)
Definition orchestrate {F : Field} (body : prog F) (outs : list wref) : prog F :=
  PGate f0 f0 f0 f0 (prog_app body (enforce_outputs outs)).

(** floor_planner.rs:20-45 [ConstraintSegment] *)
Record cseg := mk_cseg { gate_start : nat; constraint_start : nat;
                         num_gates : nat; num_constraints : nat }.
(** floor_planner.rs [floor_plan], the loop over the segment records *)
Fixpoint floor_go (gs cs : nat) (records : list (nat * nat)) : list cseg :=
  match records with
  | [] => []
  | (g, c) :: r => mk_cseg gs cs g c :: floor_go (gs + g) (cs + c) r
  end.
Definition floor_plan (records : list (nat * nat)) : list cseg := floor_go 0 0 records.

Definition lookup {W : Type} (one : W) (env : list W) (r : wref) : W :=
  match r with WOne => one | WVar i => nth i env one end.

Section Counter.
  Variable F : Field.
  Local Notation wire := (wire_eval F).

  (** metrics.rs:161-168 [SegmentRecord]; the fingerprint keeps the Horner value
      and the two counts ([RoutineFingerprint::of] also hashes Rust type ids,
      which are constant for a given routine). *)
  Record srec := mk_srec { sr_gates : nat; sr_cons : nat; sr_id : option (F * nat * nat) }.
  (** metrics.rs:215-237 [CounterScope] *)
  Record cscope := mk_cscope { co_avail : option wire; co_seg : nat;
                               co_a : F; co_b : F; co_c : F; co_d : F; co_result : F }.
  (** metrics.rs:251-299 [Counter]; the seven constants are parameters below. *)
  Record counter := mk_counter { cn_scope : cscope; cn_ncons : nat; cn_ngates : nat;
                                 cn_segs : list srec; cn_counting : bool }.
  Variables x0 x1 x2 x3 yc onec hc : F.

  Definition fresh_scope (seg : nat) : cscope := mk_cscope None seg x0 x1 x2 x3 hc.
  (** metrics.rs:302-344 [new] *)
  Definition counter_new : counter :=
    mk_counter (fresh_scope 0) 0 0 [mk_srec 0 0 None] true.

  Definition bump_seg (g c : nat) (segs : list srec) (i : nat) : list srec :=
    match nth_error segs i with
    | Some s => upd segs i (mk_srec (sr_gates s + g) (sr_cons s + c) (sr_id s))
    | None => segs
    end.
  (** metrics.rs:369-394 [gate] *)
  Definition cn_gate (k : counter) : counter * (wire * wire * wire * wire) :=
    let s := cn_scope k in
    (mk_counter
       (mk_cscope (co_avail s) (co_seg s) (fmul (co_a s) x0) (fmul (co_b s) x1)
                  (fmul (co_c s) x2) (fmul (co_d s) x3) (co_result s))
       (cn_ncons k)
       (if cn_counting k then S (cn_ngates k) else cn_ngates k)
       (if cn_counting k then bump_seg 1 0 (cn_segs k) (co_seg s) else cn_segs k)
       (cn_counting k),
     (WEValue (co_a s), WEValue (co_b s), WEValue (co_c s), WEValue (co_d s))).
  Definition set_avail (k : counter) (w : option wire) : counter :=
    let s := cn_scope k in
    mk_counter (mk_cscope w (co_seg s) (co_a s) (co_b s) (co_c s) (co_d s) (co_result s))
               (cn_ncons k) (cn_ngates k) (cn_segs k) (cn_counting k).
  Definition set_scope (k : counter) (s : cscope) : counter :=
    mk_counter s (cn_ncons k) (cn_ngates k) (cn_segs k) (cn_counting k).
  Definition set_counting (k : counter) (b : bool) : counter :=
    mk_counter (cn_scope k) (cn_ncons k) (cn_ngates k) (cn_segs k) b.
  (** metrics.rs:403-411 [alloc] *)
  Definition cn_alloc (k : counter) : counter * wire :=
    match co_avail (cn_scope k) with
    | Some w => (set_avail k None, w)
    | None => let '(k', (_, b, _, d)) := cn_gate k in (set_avail k' (Some d), b)
    end.
  Definition cn_lc (env : list wire) (lc : list (lcall F wref)) : F :=
    we_value (lin_run we_add_term we_do_gain (map (lc_map (lookup WEOne env)) lc) (we_new onec)).
  (** metrics.rs:420-426 [enforce_zero] *)
  Definition cn_enforce (k : counter) (v : F) : counter :=
    let s := cn_scope k in
    mk_counter
      (mk_cscope (co_avail s) (co_seg s) (co_a s) (co_b s) (co_c s) (co_d s)
                 (fadd (fmul (co_result s) yc) v))
      (S (cn_ncons k)) (cn_ngates k) (bump_seg 0 1 (cn_segs k) (co_seg s)) (cn_counting k).
  (** [map_gadget] with [convert_wire] = alloc (metrics.rs:534-541), for a
      gadget of m wires *)
  Fixpoint cn_remap (m : nat) (k : counter) : counter * list wire :=
    match m with
    | O => (k, [])
    | S m' => let (k1, w) := cn_alloc k in
              let (k2, ws) := cn_remap m' k1 in (k2, w :: ws)
    end.
  (** metrics.rs:351-356 [uncounted] *)
  Definition uncounted (m : nat) (k : counter) : counter * list wire :=
    let (k', ws) := cn_remap m (set_counting k false) in (set_counting k' true, ws).

  (** the driver loop; [routine] is metrics.rs:428-529 *)
  Fixpoint cn_run (p : prog F) (env : list wire) (k : counter) : list wire * counter :=
    match p with
    | PEnd => (env, k)
    | PGate _ _ _ _ p' =>
        let '(k', (a, b, c, d)) := cn_gate k in cn_run p' (env ++ [a; b; c; d]) k'
    | PMul _ _ _ p' =>               (* Driver::mul default: drop the d wire *)
        let '(k', (a, b, c, _)) := cn_gate k in cn_run p' (env ++ [a; b; c]) k'
    | PAlloc _ p' => let (k', w) := cn_alloc k in cn_run p' (env ++ [w]) k'
    | PAdd lc p' => cn_run p' (env ++ [WEValue (cn_lc env lc)]) k
    | PEnforce lc p' => cn_run p' env (cn_enforce k (cn_lc env lc))
    | PClone w p' => cn_run p' (env ++ [lookup WEOne env w]) k
    | PDrop _ p' => cn_run p' env k
    | PRoutine _ ins body outs p' =>
        let segs := cn_segs k ++ [mk_srec 0 0 None] in
        let idx := length segs - 1 in
        let saved := cn_scope k in
        let k1 := mk_counter (fresh_scope idx) (cn_ncons k) (cn_ngates k) segs (cn_counting k) in
        let (k2, new_input) := uncounted (length ins) k1 in
        let k3 := set_avail k2 None in
        let (cenv, k4) := cn_run body new_input k3 in
        let segs' :=
          match nth_error (cn_segs k4) idx with
          | Some s => upd (cn_segs k4) idx
                        (mk_srec (sr_gates s) (sr_cons s)
                                 (Some (co_result (cn_scope k4), sr_gates s, sr_cons s)))
          | None => cn_segs k4
          end in
        let k5 := mk_counter saved (cn_ncons k4) (cn_ngates k4) segs' (cn_counting k4) in
        let saved_d := co_avail (cn_scope k5) in
        let (k6, parent_output) := uncounted (length outs) (set_avail k5 None) in
        cn_run p' (env ++ parent_output) (set_avail k6 saved_d)
    end.

  (** metrics.rs:549-590 [eval_raw]: runs [orchestrate]; [None] is a failed
      consistency assertion.  Result: gates, constraints, degree of k, records. *)
  Definition metrics_eval (body : prog F) (outs : list wref)
    : option (nat * nat * nat * list srec) :=
    let (_, k) := cn_run (orchestrate body outs) [] counter_new in
    if Nat.eqb (list_sum (map sr_gates (cn_segs k))) (cn_ngates k)
       && Nat.eqb (list_sum (map sr_cons (cn_segs k))) (cn_ncons k)
    then Some (cn_ngates k, cn_ncons k, length outs, cn_segs k)
    else None.
End Counter.

Section Sxy.
  Variable F : Field.
  Local Notation wire := (wire_eval F).
  Variables (n NC : nat).            (* R::n(), R::num_coeffs() *)
  Variables (x xinv y one base_a base_b base_c b_to_d : F).
  Variable plan : list cseg.

  (** s/sxy.rs [SxyScope] *)
  Record xscope := mk_xscope { xs_avail : option wire; xs_a : F; xs_b : F; xs_c : F;
                               xs_gates : nat; xs_cons : nat; xs_result : F; xs_sum : F }.
  (** s/sxy.rs:163-179 [advance_gate] *)
  Definition xy_advance (s : xscope) : option (xscope * (F * F * F)) :=
    if Nat.eqb (xs_gates s) n then None
    else Some (mk_xscope (xs_avail s) (fmul (xs_a s) xinv) (fmul (xs_b s) x) (fmul (xs_c s) xinv)
                         (S (xs_gates s)) (xs_cons s) (xs_result s) (xs_sum s),
               (xs_a s, xs_b s, xs_c s)).
  Definition xs_set_avail (s : xscope) (w : option wire) : xscope :=
    mk_xscope w (xs_a s) (xs_b s) (xs_c s) (xs_gates s) (xs_cons s) (xs_result s) (xs_sum s).
  Definition we_lc (env : list wire) (lc : list (lcall F wref)) : F :=
    we_value (lin_run we_add_term we_do_gain (map (lc_map (lookup WEOne env)) lc) (we_new one)).

  (** s/sxy.rs:190-345; the [nat] is [current_routine] *)
  Fixpoint xy_run (p : prog F) (env : list wire) (s : xscope) (cr : nat)
    : option (list wire * xscope * nat) :=
    match p with
    | PEnd => Some (env, s, cr)
    | PGate _ _ _ _ p' =>
        match xy_advance s with
        | None => None
        | Some (s', (a, b, c)) =>
            xy_run p' (env ++ [WEValue a; WEValue b; WEValue c; WEValue (fmul b b_to_d)]) s' cr
        end
    | PMul _ _ _ p' =>
        match xy_advance s with
        | None => None
        | Some (s', (a, b, c)) => xy_run p' (env ++ [WEValue a; WEValue b; WEValue c]) s' cr
        end
    | PAlloc _ p' =>
        match xs_avail s with
        | Some w => xy_run p' (env ++ [w]) (xs_set_avail s None) cr
        | None =>
            match xy_advance s with
            | None => None
            | Some (s', (a, b, c)) =>
                xy_run p' (env ++ [WEValue b])
                       (xs_set_avail s' (Some (WEValue (fmul b b_to_d)))) cr
            end
        end
    | PAdd lc p' => xy_run p' (env ++ [WEValue (we_lc env lc)]) s cr
    | PEnforce lc p' =>
        if NC - 1 <=? xs_cons s then None
        else xy_run p' env
               (mk_xscope (xs_avail s) (xs_a s) (xs_b s) (xs_c s) (xs_gates s) (S (xs_cons s))
                          (fadd (fmul (xs_result s) y) (we_lc env lc)) (xs_sum s)) cr
    | PClone w p' => xy_run p' (env ++ [lookup WEOne env w]) s cr
    | PDrop _ p' => xy_run p' env s cr
    | PRoutine _ ins body outs p' =>
        match nth_error plan (S cr) with
        | None => None
        | Some seg =>
            let init := mk_xscope None (fmul base_a (fpow xinv (gate_start seg)))
                          (fmul base_b (fpow x (gate_start seg)))
                          (fmul base_c (fpow xinv (gate_start seg)))
                          (gate_start seg) (constraint_start seg) f0 f0 in
            match xy_run body (map (lookup WEOne env) ins) init (S cr) with
            | None => None
            | Some (cenv, cs, cr') =>
                if Nat.eqb (xs_gates cs) (gate_start seg + num_gates seg)
                   && Nat.eqb (xs_cons cs) (constraint_start seg + num_constraints seg)
                then
                  let contribution :=
                    fadd (fmul (fpow y (constraint_start seg)) (xs_result cs)) (xs_sum cs) in
                  xy_run p' (env ++ map (lookup WEOne cenv) outs)
                    (mk_xscope (xs_avail s) (xs_a s) (xs_b s) (xs_c s) (xs_gates s) (xs_cons s)
                               (xs_result s) (fadd (xs_sum s) contribution)) cr'
                else None
            end
        end
    end.
End Sxy.

(** s/sxy.rs:353-424 [eval].  [None] covers [Err] and failed assertions; the
    [Drop]s of wire handles are no-ops for [WireEval]. *)
Definition sxy_eval {F : Field} (n NC : nat) (body : prog F) (outs : list wref)
           (x y : F) (plan : list cseg) : option F :=
  if feqb x f0 then Some f0
  else
    let xinv := finv x in
    let xn := fpow x n in
    let xn2 := sqr xn in
    let xn4 := sqr xn2 in
    let one := xn2 in
    if feqb y f0 then Some one
    else
      let base_a := fmul xn2 xinv in
      let base_c := fmul xn4 xinv in
      let b_to_d := sqr (fpow xinv n) in
      match xy_run F n NC x xinv y one base_a xn2 base_c b_to_d plan (orchestrate body outs) []
                   (mk_xscope F None base_a xn2 base_c 0 0 f0 f0) 0 with
      | None => None
      | Some (_, s, cr) =>
          match nth_error plan 0 with
          | None => None
          | Some root =>
              if Nat.eqb (S cr) (length plan) && Nat.eqb (xs_gates _ s) (num_gates root)
                 && Nat.eqb (xs_cons _ s) (num_constraints root)
              then Some (fadd (xs_result _ s) (xs_sum _ s)) else None
          end
      end.

Section Sx.
  Variable F : Field.
  Local Notation wire := (wire_eval F).
  Variables (n NC : nat).
  Variables (x xinv one base_a base_b base_c b_to_d : F).
  Variable plan : list cseg.
  (** s/sx.rs:95-115 [SxScope] *)
  Record sscope := mk_sscope { ss_avail : option wire; ss_a : F; ss_b : F; ss_c : F;
                               ss_gates : nat; ss_cons : nat }.
  (** s/sx.rs:190-207 [advance_gate] *)
  Definition sx_advance (s : sscope) : option (sscope * (F * F * F)) :=
    if Nat.eqb (ss_gates s) n then None
    else Some (mk_sscope (ss_avail s) (fmul (ss_a s) xinv) (fmul (ss_b s) x) (fmul (ss_c s) xinv)
                         (S (ss_gates s)) (ss_cons s), (ss_a s, ss_b s, ss_c s)).
  Definition ss_set_avail (s : sscope) (w : option wire) : sscope :=
    mk_sscope w (ss_a s) (ss_b s) (ss_c s) (ss_gates s) (ss_cons s).

  (** s/sx.rs:210-360; the state is scope, [result], [current_routine] *)
  Fixpoint sx_run (p : prog F) (env : list wire) (s : sscope) (res : list F) (cr : nat)
    : option (list wire * sscope * list F * nat) :=
    match p with
    | PEnd => Some (env, s, res, cr)
    | PGate _ _ _ _ p' =>
        match sx_advance s with
        | None => None
        | Some (s', (a, b, c)) =>
            sx_run p' (env ++ [WEValue a; WEValue b; WEValue c; WEValue (fmul b b_to_d)]) s' res cr
        end
    | PMul _ _ _ p' =>
        match sx_advance s with
        | None => None
        | Some (s', (a, b, c)) => sx_run p' (env ++ [WEValue a; WEValue b; WEValue c]) s' res cr
        end
    | PAlloc _ p' =>
        match ss_avail s with
        | Some w => sx_run p' (env ++ [w]) (ss_set_avail s None) res cr
        | None =>
            match sx_advance s with
            | None => None
            | Some (s', (a, b, c)) =>
                sx_run p' (env ++ [WEValue b])
                       (ss_set_avail s' (Some (WEValue (fmul b b_to_d)))) res cr
            end
        end
    | PAdd lc p' => sx_run p' (env ++ [WEValue (we_lc F one env lc)]) s res cr
    | PEnforce lc p' =>
        if NC - 1 <=? ss_cons s then None
        else sx_run p' env
               (mk_sscope (ss_avail s) (ss_a s) (ss_b s) (ss_c s) (ss_gates s) (S (ss_cons s)))
               (upd res (ss_cons s) (we_lc F one env lc)) cr
    | PClone w p' => sx_run p' (env ++ [lookup WEOne env w]) s res cr
    | PDrop _ p' => sx_run p' env s res cr
    | PRoutine _ ins body outs p' =>
        match nth_error plan (S cr) with
        | None => None
        | Some seg =>
            let init := mk_sscope None (fmul base_a (fpow xinv (gate_start seg)))
                          (fmul base_b (fpow x (gate_start seg)))
                          (fmul base_c (fpow xinv (gate_start seg)))
                          (gate_start seg) (constraint_start seg) in
            match sx_run body (map (lookup WEOne env) ins) init res (S cr) with
            | None => None
            | Some (cenv, cs, res', cr') =>
                if Nat.eqb (ss_gates cs) (gate_start seg + num_gates seg)
                   && Nat.eqb (ss_cons cs) (constraint_start seg + num_constraints seg)
                then sx_run p' (env ++ map (lookup WEOne cenv) outs) s res' cr'
                else None
            end
        end
    end.
  (** [v[lo..lo+len].reverse()] *)
  Definition rev_slice (lo len : nat) (v : list F) : list F :=
    firstn lo v ++ rev (firstn len (skipn lo v)) ++ skipn (lo + len) v.
End Sx.

(** s/sx.rs:362-442 [eval] *)
Definition sx_eval {F : Field} (n NC : nat) (body : prog F) (outs : list wref)
           (x : F) (plan : list cseg) : option (list (nat * list F)) :=
  if feqb x f0 then Some p_new
  else
    let xinv := finv x in
    let xn := fpow x n in
    let xn2 := sqr xn in
    let xn4 := sqr xn2 in
    let base_a := fmul xn2 xinv in
    let base_c := fmul xn4 xinv in
    let b_to_d := sqr (fpow xinv n) in
    match sx_run F n NC x xinv xn2 base_a xn2 base_c b_to_d plan (orchestrate body outs) []
                 (mk_sscope F None base_a xn2 base_c 0 0) (repeat f0 NC) 0 with
    | None => None
    | Some (_, s, res, cr) =>
        match nth_error plan 0 with
        | None => None
        | Some root =>
            if Nat.eqb (S cr) (length plan) && Nat.eqb (ss_gates _ s) (num_gates root)
               && Nat.eqb (ss_cons _ s) (num_constraints root)
            then
              let res' := fold_left (fun v seg =>
                             rev_slice F (constraint_start seg) (num_constraints seg) v) plan res in
              if feqb (nth 0 res' f0) xn2 then from_coeffs NC res' else None
            else None
        end
    end.

(** lib.rs:214-239 [into_circuit_object]: metrics first, then the constraint
    bound (the last coefficient is reserved), then the gate bound; the result
    stands for the metrics kept inside the circuit object.  [None] is either
    error. *)
Definition circuit_object {F : Field} (x0 x1 x2 x3 yc onec hc : F) (n NC : nat)
           (body : prog F) (outs : list wref) : option (list (srec F)) :=
  match metrics_eval F x0 x1 x2 x3 yc onec hc body outs with
  | None => None
  | Some (gates, constraints, _, segs) =>
      if NC <=? constraints then None
      else if n <? gates then None
      else Some segs
  end.
(** floor_planner.rs:80-97 on the segment records of the circuit object *)
Definition object_plan {F : Field} (segs : list (srec F)) : list cseg :=
  floor_plan (map (fun s => (sr_gates F s, sr_cons F s)) segs).
