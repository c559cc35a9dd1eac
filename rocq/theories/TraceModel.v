(** Trace generation and assembly (crates/ragu_circuits/src/trace.rs) and the
    public-input polynomial (ky.rs, horner.rs). *)
From Coq Require Import List Arith Lia Bool.
From Verif Require Import FieldDef ArithModel FFTModel SparseModel CircModel.
Import ListNotations.

Section Trace.
  Variable F : Field.
  (** trace.rs:32-37 [Segment] *)
  Record tseg := mk_tseg { tg_a : list F; tg_b : list F; tg_c : list F; tg_d : list F }.
  (** trace.rs:48-51 [AnnotatedSegment] *)
  Local Notation aseg := (list nat * tseg)%type.
  (** trace.rs:53-68 [AnnotatedSegment::new] *)
  Definition aseg_new (prefix : list nat) : aseg :=
    let init := match prefix with [] => [f0 : F] | _ => [] end in
    (prefix, mk_tseg init init init init).

  (** trace.rs:151-164 [TraceScope] *)
  Record tscope := mk_tscope { ts_avail : option nat; ts_cur : nat; ts_counter : nat;
                               ts_prefix : list nat }.
  (** trace.rs:166-179 [Evaluator].  [ev_batches] stands for what the spawned
      evaluators of Known-predicted routines send: one batch of segments per
      evaluator.  Without multicore, [deferred] is their concatenation in this
      order (l.330-331); with multicore they arrive in any order. *)
  Record teval := mk_teval { ev_segs : list aseg; ev_batches : list (list aseg);
                             ev_scope : tscope }.
  (** trace.rs:182-214 [Evaluator::new] *)
  Definition ev_new (prefix : list nat) : teval :=
    mk_teval [aseg_new prefix] [] (mk_tscope None 0 0 prefix).

  Definition with_seg (e : teval) (s : tscope) (f : tseg -> tseg) : option teval :=
    match nth_error (ev_segs e) (ts_cur s) with
    | Some (path, seg) => Some (mk_teval (upd (ev_segs e) (ts_cur s) (path, f seg)) (ev_batches e) s)
    | None => None
    end.
  Definition seg_push (a b c d : F) (g : tseg) : tseg :=
    mk_tseg (tg_a g ++ [a]) (tg_b g ++ [b]) (tg_c g ++ [c]) (tg_d g ++ [d]).
  Definition seg_set_d (i : nat) (v : F) (g : tseg) : tseg :=
    mk_tseg (tg_a g) (tg_b g) (tg_c g) (upd (tg_d g) i v).
  Definition cur_len (e : teval) : nat :=
    match nth_error (ev_segs e) (ts_cur (ev_scope e)) with
    | Some (_, g) => length (tg_a g) | None => 0 end.

  (** trace.rs:230-360 (gate, alloc, routine); [mul] is the trait default, a gate
      with d = 0 (ragu_core drivers.rs:274-283).  Wires are [()]. *)
  Fixpoint tr_run (p : prog F) (e : teval) : option teval :=
    match p with
    | PEnd => Some e
    | PGate a b c d p' =>
        match with_seg e (ev_scope e) (seg_push a b c d) with
        | None => None | Some e' => tr_run p' e' end
    | PMul a b c p' =>
        match with_seg e (ev_scope e) (seg_push a b c f0) with
        | None => None | Some e' => tr_run p' e' end
    | PAlloc v p' =>
        let s := ev_scope e in
        match ts_avail s with
        | Some i =>
            match with_seg e (mk_tscope None (ts_cur s) (ts_counter s) (ts_prefix s))
                           (seg_set_d i v) with
            | None => None | Some e' => tr_run p' e' end
        | None =>
            match with_seg e (mk_tscope (Some (cur_len e)) (ts_cur s) (ts_counter s) (ts_prefix s))
                           (seg_push f0 v f0 f0) with
            | None => None | Some e' => tr_run p' e' end
        end
    | PAdd _ p' => tr_run p' e
    | PEnforce _ p' => tr_run p' e
    | PClone _ p' => tr_run p' e
    | PDrop _ p' => tr_run p' e
    | PRoutine known _ body _ p' =>
        let s := ev_scope e in
        let s' := mk_tscope (ts_avail s) (ts_cur s) (S (ts_counter s)) (ts_prefix s) in
        let child_prefix := ts_prefix s ++ [ts_counter s] in
        if known then
          match tr_run body (ev_new child_prefix) with
          | None => None
          | Some ce =>
              tr_run p' (mk_teval (ev_segs e) (ev_batches e ++ ev_segs ce :: ev_batches ce) s')
          end
        else
          let seg_idx := length (ev_segs e) in
          match tr_run body (mk_teval (ev_segs e ++ [aseg_new child_prefix]) (ev_batches e)
                                      (mk_tscope None seg_idx 0 child_prefix)) with
          | None => None
          | Some ce =>
              if Nat.eqb (ts_cur (ev_scope ce)) seg_idx
              then tr_run p' (mk_teval (ev_segs ce) (ev_batches ce) s')
              else None
          end
    end.

  (** [Ord for Vec<usize>]: lexicographic *)
  Fixpoint path_leb (p q : list nat) : bool :=
    match p, q with
    | [], _ => true
    | _ :: _, [] => false
    | x :: p', y :: q' => if x <? y then true else if y <? x then false else path_leb p' q'
    end.
  (** [sort_unstable_by] modelled by insertion sort; paths are distinct, so every
      sorting algorithm gives the same list (part of C18). *)
  Fixpoint path_insert (s : aseg) (l : list aseg) : list aseg :=
    match l with
    | [] => [s]
    | t :: r => if path_leb (fst s) (fst t) then s :: l else t :: path_insert s r
    end.
  Definition path_sort (l : list aseg) : list aseg := fold_right path_insert [] l.
  (** trace.rs:363-374 [finish] *)
  Definition finish (l : list aseg) : option (list tseg) :=
    let s := path_sort l in
    match s with
    | ([], _) :: _ => Some (map snd s)
    | _ => None
    end.
  (** trace.rs:381-426 [eval]; [order] permutes the batches. *)
  Definition trace_eval (order : list (list aseg) -> list (list aseg)) (body : prog F)
    : option (list tseg) :=
    match tr_run body (ev_new []) with
    | None => None
    | Some e => finish (ev_segs e ++ concat (order (ev_batches e)))
    end.

  (** [v[off..off+src.len()].copy_from_slice(src)] *)
  Definition copy_at (off : nat) (src v : list F) : option (list F) :=
    if off + length src <=? length v
    then Some (firstn off v ++ src ++ skipn (off + length src) v) else None.
  (** trace.rs:122-139, the scatter loop over one of the four vectors *)
  Fixpoint scatter (get : tseg -> list F) (segs : list tseg) (plan : list cseg) (v : list F)
    : option (list F) :=
    match segs, plan with
    | [], _ => Some v
    | s :: r, p :: ps =>
        if Nat.eqb (length (tg_a s)) (num_gates p)
        then match copy_at (gate_start p) (get s) v with
             | None => None | Some v' => scatter get r ps v' end
        else None
    | _ :: _, [] => None
    end.
  (** trace.rs:87-147 [assemble]; the four vectors are scattered one after the
      other here, in the same iteration there. *)
  Definition assemble (n NC : nat) (plan : list cseg) (alpha : F) (segs : list tseg)
    : option (list (nat * list F)) :=
    if negb (Nat.eqb (length plan) (length segs)) then None
    else match plan with
    | [] => None
    | p0 :: _ =>
        if negb (Nat.eqb (gate_start p0) 0) then None
        else
          let total := fold_right Nat.max 0
                         (map (fun ps => gate_start (fst ps) + length (tg_a (snd ps)))
                              (combine plan segs)) in
          if n <? total then None
          else
            let z := repeat f0 total in
            match scatter tg_a segs plan z, scatter tg_b segs plan z,
                  scatter tg_c segs plan z, scatter tg_d segs plan z with
            | Some a, Some b, Some c, Some d =>
                if Nat.eqb total 0 then None      (* view.b[0] out of bounds *)
                else trace_build NC n a (upd b 0 f1) c (upd d 0 alpha)
            | _, _, _, _ => None
            end
    end.

  (** horner.rs:55-63 [Buffer::write] *)
  Definition horner_write (point : F) (acc : option F) (value : F) : option F :=
    Some (match acc with Some r => fadd (fmul r point) value | None => value end).
  (** horner.rs:40-52 [finish], [finish_ky] *)
  Definition horner_finish (acc : option F) : F := match acc with Some r => r | None => f0 end.
  Definition horner_finish_ky (point : F) (acc : option F) : F :=
    horner_finish (horner_write point acc f1).
  (** ky.rs:15-25 [eval] on the elements written by the instance *)
  Definition ky_eval (outputs : list F) (y : F) : F :=
    horner_finish_ky y (fold_left (horner_write y) outputs None).
End Trace.
Arguments tg_a {F}. Arguments tg_b {F}. Arguments tg_c {F}. Arguments tg_d {F}.
Arguments mk_tseg {F}. Arguments tr_run {F}. Arguments ev_new {F}. Arguments finish {F}.
Arguments trace_eval {F}. Arguments assemble {F}. Arguments ky_eval {F}. Arguments scatter {F}.
Arguments ev_segs {F}. Arguments ev_batches {F}. Arguments ev_scope {F}. Arguments mk_teval {F}.
Arguments path_insert {F}. Arguments path_sort {F}. Arguments aseg_new {F}. Arguments with_seg {F}.
Arguments seg_push {F}. Arguments seg_set_d {F}. Arguments cur_len {F}. Arguments copy_at {F}.
Arguments horner_write {F}. Arguments horner_finish {F}. Arguments horner_finish_ky {F}.
