(** The s(X, y) evaluator with reference-counted virtual wires
    (crates/ragu_circuits/src/s/sy.rs). *)
From Coq Require Import List Arith Lia Bool.
From Verif Require Import FieldDef ArithModel FFTModel SparseModel CircModel.
Import ListNotations.

(** sy.rs:99-106 [WireIndex] *)
Inductive widx := IA (i : nat) | IB (i : nat) | IC (i : nat) | ID (i : nat) | IV (i : nat).

Section VT.
  Variable F : Field.
  (** sy.rs:210-230 [VirtualWire] *)
  Record vwire := mk_vwire { vw_rc : nat; vw_terms : list (widx * Coeff F); vw_value : Coeff F }.
  (** sy.rs:240-266 [VirtualTable] *)
  Record vtable := mk_vtable { vt_wires : list vwire; vt_free : list nat;
                               vt_a : list F; vt_b : list F; vt_c : list F; vt_d : list F }.
  Definition set_wires (t : vtable) (ws : list vwire) : vtable :=
    mk_vtable ws (vt_free t) (vt_a t) (vt_b t) (vt_c t) (vt_d t).

  (** [v[i] += z]; [None] is the out-of-bounds panic *)
  Definition bump (v : list F) (i : nat) (z : F) : option (list F) :=
    match nth_error v i with Some o => Some (upd v i (fadd o z)) | None => None end.

  (** sy.rs:269-280 [VirtualTable::add] *)
  Definition vt_add (t : vtable) (index : widx) (value : Coeff F) : option vtable :=
    match index with
    | IA i => option_map (fun v => mk_vtable (vt_wires t) (vt_free t) v (vt_b t) (vt_c t) (vt_d t))
                         (bump (vt_a t) i (c_value value))
    | IB i => option_map (fun v => mk_vtable (vt_wires t) (vt_free t) (vt_a t) v (vt_c t) (vt_d t))
                         (bump (vt_b t) i (c_value value))
    | IC i => option_map (fun v => mk_vtable (vt_wires t) (vt_free t) (vt_a t) (vt_b t) v (vt_d t))
                         (bump (vt_c t) i (c_value value))
    | ID i => option_map (fun v => mk_vtable (vt_wires t) (vt_free t) (vt_a t) (vt_b t) (vt_c t) v)
                         (bump (vt_d t) i (c_value value))
    | IV i => match nth_error (vt_wires t) i with
              | Some w => Some (set_wires t (upd (vt_wires t) i
                            (mk_vwire (vw_rc w) (vw_terms w) (c_add (vw_value w) value))))
              | None => None
              end
    end.

  (** sy.rs:289-307 [VirtualTable::free].  [fuel] bounds the recursion depth;
      running out of fuel gives [None] (theorem C17 shows that the fuel passed by
      [vt_drop] always suffices). *)
  Fixpoint vt_free_rec (fuel : nat) (t : vtable) (index : widx) : option vtable :=
    match fuel with
    | O => None
    | S fuel' =>
        match index with
        | IV i =>
            match nth_error (vt_wires t) i with
            | None => None
            | Some w =>
                match vw_rc w with
                | O => None                                  (* assert refcount > 0 *)
                | S rc =>
                    match rc with
                    | S _ => Some (set_wires t (upd (vt_wires t) i
                                     (mk_vwire rc (vw_terms w) (vw_value w))))
                    | O =>
                        let t1 := set_wires t (upd (vt_wires t) i (mk_vwire 0 [] (vw_value w))) in
                        let value := vw_value w in
                        match
                          fold_left (fun acc tc =>
                            match acc with
                            | None => None
                            | Some t' =>
                                match vt_add t' (fst tc) (c_mul value (snd tc)) with
                                | None => None
                                | Some t'' => vt_free_rec fuel' t'' (fst tc)
                                end
                            end) (vw_terms w) (Some t1)
                        with
                        | None => None
                        | Some t2 =>
                            match nth_error (vt_wires t2) i with
                            | None => None
                            | Some w2 =>
                                Some (mk_vtable
                                  (upd (vt_wires t2) i (mk_vwire (vw_rc w2) (vw_terms w2) CZero))
                                  (vt_free t2 ++ [i]) (vt_a t2) (vt_b t2) (vt_c t2) (vt_d t2))
                            end
                        end
                    end
                end
            end
        | _ => Some t
        end
    end.
  (** sum of all reference counts: the fuel used by [vt_drop] *)
  Definition total_rc (t : vtable) : nat := list_sum (map vw_rc (vt_wires t)).
  (** sy.rs:176-182 [Drop for Wire] *)
  Definition vt_drop (t : vtable) (w : widx) : option vtable := vt_free_rec (S (total_rc t)) t w.

  (** sy.rs:310-317 [update] *)
  Definition vt_update (t : vtable) (i : nat) (terms : list (widx * Coeff F)) : option vtable :=
    match nth_error (vt_wires t) i with
    | Some w => Some (set_wires t (upd (vt_wires t) i (mk_vwire (vw_rc w) terms (vw_value w))))
    | None => None
    end.

  (** sy.rs:320-342 [alloc]; [free] is a stack whose top is the end of the list *)
  Definition vt_alloc (t : vtable) : option (vtable * nat) :=
    match rev (vt_free t) with
    | i :: rest =>
        match nth_error (vt_wires t) i with
        | None => None
        | Some w =>
            if Nat.eqb (vw_rc w) 0 && c_is_zero (vw_value w)
               && match vw_terms w with [] => true | _ => false end
            then Some (mk_vtable (upd (vt_wires t) i (mk_vwire 1 (vw_terms w) (vw_value w)))
                                 (rev rest) (vt_a t) (vt_b t) (vt_c t) (vt_d t), i)
            else None
        end
    | [] => Some (mk_vtable (vt_wires t ++ [mk_vwire 1 [] CZero]) [] (vt_a t) (vt_b t) (vt_c t)
                            (vt_d t), length (vt_wires t))
    end.

  (** sy.rs:149-174 [increment_refcount] and [Clone for Wire] *)
  Definition vt_inc (t : vtable) (w : widx) : option vtable :=
    match w with
    | IV i => match nth_error (vt_wires t) i with
              | Some v => Some (set_wires t (upd (vt_wires t) i
                            (mk_vwire (S (vw_rc v)) (vw_terms v) (vw_value v))))
              | None => None
              end
    | _ => Some t
    end.

  (** sy.rs:412-442 [TermCollector]: table (for the refcounts), terms, gain *)
  Record tcol := mk_tcol { tc_table : option vtable; tc_terms : list (widx * Coeff F);
                           tc_gain : Coeff F }.
  Definition tc_add_term (l : tcol) (w : widx) (c : Coeff F) : tcol :=
    mk_tcol (match tc_table l with Some t => vt_inc t w | None => None end)
            (tc_terms l ++ [(w, c_mul c (tc_gain l))]) (tc_gain l).
  Definition tc_do_gain (l : tcol) (c : Coeff F) : tcol :=
    mk_tcol (tc_table l) (tc_terms l) (c_mul (tc_gain l) c).

  (** sy.rs:459-475 [TermEnforcer] *)
  Record tenf := mk_tenf { te_table : option vtable; te_y : Coeff F }.
  Definition te_add_term (l : tenf) (w : widx) (c : Coeff F) : tenf :=
    mk_tenf (match te_table l with Some t => vt_add t w (c_mul c (te_y l)) | None => None end)
            (te_y l).
  Definition te_do_gain (l : tenf) (c : Coeff F) : tenf :=
    mk_tenf (te_table l) (c_mul (te_y l) c).
  (** sy.rs:563-572 [Driver::add] *)
  Definition sy_add (t : vtable) (lc : list (lcall F widx)) : option (vtable * widx) :=
    match vt_alloc t with
    | None => None
    | Some (t1, i) =>
        let r := lin_run tc_add_term tc_do_gain lc (mk_tcol (Some t1) [] COne) in
        match tc_table r with
        | None => None
        | Some t2 => match vt_update t2 i (tc_terms r) with
                     | None => None
                     | Some t3 => Some (t3, IV i)
                     end
        end
    end.
  (** sy.rs:594-597, the body of [enforce_zero] *)
  Definition sy_enforce (t : vtable) (y : F) (lc : list (lcall F widx)) : option vtable :=
    te_table (lin_run te_add_term te_do_gain lc (mk_tenf (Some t) (CArb y))).
End VT.
Arguments vt_wires {F}. Arguments vt_free {F}. Arguments vt_a {F}. Arguments vt_b {F}.
Arguments vt_c {F}. Arguments vt_d {F}. Arguments vw_rc {F}. Arguments vw_terms {F}.
Arguments vw_value {F}. Arguments mk_vwire {F}. Arguments mk_vtable {F}.
Arguments vt_add {F}. Arguments vt_free_rec {F}. Arguments vt_drop {F}. Arguments vt_update {F}.
Arguments vt_alloc {F}. Arguments vt_inc {F}. Arguments total_rc {F}. Arguments bump {F}.
Arguments set_wires {F}. Arguments sy_add {F}. Arguments sy_enforce {F}.
Arguments tc_table {F}. Arguments tc_terms {F}. Arguments tc_gain {F}. Arguments mk_tcol {F}.
Arguments te_table {F}. Arguments te_y {F}. Arguments mk_tenf {F}.
Arguments tc_add_term {F}. Arguments tc_do_gain {F}. Arguments te_add_term {F}. Arguments te_do_gain {F}.

Section SyRun.
  Variable F : Field.
  Variables (n NC : nat) (y yinv : F).
  Variable plan : list cseg.

  (** sy.rs:346-357 [SyScope] *)
  Record yscope := mk_yscope { ys_avail : option widx; ys_y : F; ys_gates : nat; ys_cons : nat }.

  (** An environment entry is a handle, or [None] once it was moved or dropped.
      Rust's ownership rules make the use of such an entry impossible; here it
      gives [None]. ONE is [Copy]-like (no table, no count). *)
  Local Notation senv := (list (option widx)).
  Definition s_get (env : senv) (r : wref) : option widx :=
    match r with
    | WOne => Some (IB 0)                              (* sy.rs:539-542 *)
    | WVar i => nth i env None
    end.
  Definition o_all {A : Type} (l : list (option A)) : option (list A) :=
    fold_right (fun o acc => match o, acc with Some a, Some r => Some (a :: r) | _, _ => None end)
               (Some []) l.
  Definition lc_get (env : senv) (op : lcall F wref) : option (lcall F widx) :=
    match op with
    | LTerm w c => option_map (fun v => LTerm v c) (s_get env w)
    | LGain c => Some (LGain c)
    | LAdd w => option_map LAdd (s_get env w)
    | LSub w => option_map LSub (s_get env w)
    | LExtend ts =>
        option_map LExtend
          (o_all (map (fun t => option_map (fun v => (v, snd t)) (s_get env (fst t))) ts))
    end.
  Definition lc_gets (env : senv) (lc : list (lcall F wref)) := o_all (map (lc_get env) lc).
  (** moving handles out of the environment *)
  Fixpoint s_take (env : senv) (rs : list wref) : option (senv * list widx) :=
    match rs with
    | [] => Some (env, [])
    | WOne :: r => match s_take env r with Some (e, l) => Some (e, IB 0 :: l) | None => None end
    | WVar i :: r =>
        match nth i env None with
        | None => None
        | Some w => match s_take (upd env i None) r with
                    | Some (e, l) => Some (e, w :: l) | None => None end
        end
    end.
  (** end of scope: the remaining handles are dropped *)
  Fixpoint s_drop_all (t : vtable F) (env : senv) : option (vtable F) :=
    match env with
    | [] => Some t
    | None :: r => s_drop_all t r
    | Some w :: r => match vt_drop t w with Some t' => s_drop_all t' r | None => None end
    end.

  (** sy.rs:511-648 *)
  Fixpoint sy_run (p : prog F) (env : senv) (s : yscope) (t : vtable F) (cr : nat)
    : option (senv * yscope * vtable F * nat) :=
    match p with
    | PEnd => Some (env, s, t, cr)
    | PGate _ _ _ _ p' =>
        let g := ys_gates s in
        if Nat.eqb g n then None
        else sy_run p' (env ++ [Some (IA g); Some (IB g); Some (IC g); Some (ID g)])
                    (mk_yscope (ys_avail s) (ys_y s) (S g) (ys_cons s)) t cr
    | PMul _ _ _ p' =>
        let g := ys_gates s in
        if Nat.eqb g n then None
        else sy_run p' (env ++ [Some (IA g); Some (IB g); Some (IC g)])
                    (mk_yscope (ys_avail s) (ys_y s) (S g) (ys_cons s)) t cr
    | PAlloc _ p' =>
        match ys_avail s with
        | Some w => sy_run p' (env ++ [Some w]) (mk_yscope None (ys_y s) (ys_gates s) (ys_cons s)) t cr
        | None =>
            let g := ys_gates s in
            if Nat.eqb g n then None
            else sy_run p' (env ++ [Some (IB g)]) (mk_yscope (Some (ID g)) (ys_y s) (S g) (ys_cons s)) t cr
        end
    | PAdd lc p' =>
        match lc_gets env lc with
        | None => None
        | Some l => match sy_add t l with
                    | None => None
                    | Some (t', w) => sy_run p' (env ++ [Some w]) s t' cr
                    end
        end
    | PEnforce lc p' =>
        if NC - 1 <=? ys_cons s then None
        else match lc_gets env lc with
             | None => None
             | Some l => match sy_enforce t (ys_y s) l with
                         | None => None
                         | Some t' =>
                             sy_run p' env (mk_yscope (ys_avail s) (fmul (ys_y s) yinv) (ys_gates s)
                                                      (S (ys_cons s))) t' cr
                         end
             end
    | PClone r p' =>
        match s_get env r with
        | None => None
        | Some w => match vt_inc t w with
                    | None => None
                    | Some t' => sy_run p' (env ++ [Some w]) s t' cr
                    end
        end
    | PDrop i p' =>
        match nth i env None with
        | None => None
        | Some w => match vt_drop t w with
                    | None => None
                    | Some t' => sy_run p' (upd env i None) s t' cr
                    end
        end
    | PRoutine _ ins body outs p' =>
        match nth_error plan (S cr) with
        | None => None
        | Some seg =>
            match s_take env ins with
            | None => None
            | Some (env1, input) =>
                let init := mk_yscope None
                              (if Nat.eqb (num_constraints seg) 0 then f0
                               else fpow y (constraint_start seg + num_constraints seg - 1))
                              (gate_start seg) (constraint_start seg) in
                match sy_run body (map Some input) init t (S cr) with
                | None => None
                | Some (cenv, cs, t1, cr') =>
                    if Nat.eqb (ys_gates cs) (gate_start seg + num_gates seg)
                       && Nat.eqb (ys_cons cs) (constraint_start seg + num_constraints seg)
                    then
                      match s_take cenv outs with
                      | None => None
                      | Some (cenv1, output) =>
                          match s_drop_all t1 cenv1 with
                          | None => None
                          | Some t2 => sy_run p' (env1 ++ map Some output) s t2 cr'
                          end
                      end
                    else None
                end
            end
        end
    end.
End SyRun.

(** sy.rs:664-750 [eval] *)
Definition sy_eval {F : Field} (n NC : nat) (body : prog F) (outs : list wref)
           (y : F) (plan : list cseg) : option (list (nat * list F)) :=
  if feqb y f0 then wiring_build NC n [] [f1] [] []
  else
    let total := list_sum (map num_gates plan) in
    match nth_error plan 0 with
    | None => None
    | Some root =>
        if Nat.eqb (num_constraints root) 0 then None
        else
          let z := repeat f0 total in
          match sy_run F n NC y (finv y) plan (orchestrate body outs) []
                  (mk_yscope F None (fpow y (num_constraints root - 1)) 0 0)
                  (mk_vtable [] [] z z z z) 0 with
          | None => None
          | Some (env, s, t, cr) =>
              match s_drop_all F t env with
              | None => None
              | Some t' =>
                  if Nat.eqb (S cr) (length plan) && Nat.eqb (ys_gates _ s) (num_gates root)
                     && Nat.eqb (ys_cons _ s) (num_constraints root)
                     && Nat.eqb (length (vt_free t')) (length (vt_wires t'))
                  then wiring_build NC n (vt_a t') (vt_b t') (vt_c t') (vt_d t')
                  else None
              end
          end
    end.
