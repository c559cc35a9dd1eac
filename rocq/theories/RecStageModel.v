(** The recursion circuits as multi-stage circuits: how each circuit's stages are
    laid out on wires and turned into the gadgets the circuit code of RecModel.v
    works on. *)
From Coq Require Import List Arith NArith Bool.
From Verif Require Import FieldDef ArithModel GadgetModel SpongeModel FoldModel PcdModel RecModel CircModel CompileModel.
Import ListNotations.
Local Open Scope nat_scope.

(** ** stage sizes ([Stage::values]; every gadget has that many wires) *)
(** internal/native/unified.rs:42 [NUM_WIRES] and the fields of 76-101 *)
Definition uwidth (f : ufield) : nat := match f with FP _ => 2 | FE _ => 1 end.
Definition unified_wires : nat := list_sum (map uwidth uall).
(** stages/preamble.rs:260-263 *)
Definition pin_wires (hs : nat) : nat := 3 * hs + 1 + unified_wires.
Definition pre_wires (hs : nat) : nat := 2 * pin_wires hs.
(** stages/outer_error.rs:119-125 *)
Definition oe_wires (N t : nat) : nat := num_error_terms N + N + 6 + t.
(** stages/inner_error.rs:58-62 *)
Definition ie_wires (M N : nat) : nat := N * num_error_terms M.
(** stages/query.rs:285-288 *)
Definition query_wires : nat := 13 + 1 + 2 * 16.
(** stages/eval.rs:135-138 *)
Definition eval_wires : nat := 2 * 15 + 6.
Definition whole (n : nat) : nat * nat := (n, n).

(** ** injecting stage wires into gadgets (staging/builder.rs:140-175
    [unenforced_inner]: the wires replace those of the emulated gadget in field
    order).  Missing wires do not occur, as the guard holds exactly [values()]
    wires; [one] stands for them here. *)
Section Load.
  Variable F : Field.
  Variable W : Type.
  Variable one : W.
  Definition we (w : W) : elem F W := mk_elem F W w None.
  Definition at_wire (ws : list W) (i : nat) : elem F W := we (nth i ws one).
  Definition slice (ws : list W) (i len : nat) : list (elem F W) := map we (firstn len (skipn i ws)).
  (** position of a field of unified.rs:76-101 *)
  Fixpoint uoff (fs : list ufield) (f : ufield) : nat :=
    match fs with
    | [] => 0
    | g :: r => if ufield_eqb f g then 0 else uwidth g + uoff r f
    end.
  Definition load_uout (ws : list W) (o : nat) : uout F W :=
    mk_uout F W
      (fun p => mk_point F W (at_wire ws (o + uoff uall (FP p))) (at_wire ws (o + uoff uall (FP p) + 1)))
      (fun x => at_wire ws (o + uoff uall (FE x))).
  (** stages/preamble.rs:69-91: children, output header, circuit id, unified instance *)
  Definition load_pin (hs : nat) (ws : list W) (o : nat) : pinputs F W :=
    mk_pinputs F W (slice ws o hs) (slice ws (o + hs) hs) (slice ws (o + 2 * hs) hs) (at_wire ws (o + 3 * hs))
      (load_uout ws (o + 3 * hs + 1)).
  (** stages/preamble.rs:230-235 *)
  Definition load_pre (hs : nat) (ws : list W) : preamble F W :=
    mk_preamble F W (load_pin hs ws 0) (load_pin hs ws (pin_wires hs)).
  (** stages/outer_error.rs:66-104 *)
  Definition load_cky (ws : list W) (o : nat) : child_ky (elem F W) :=
    mk_child_ky (at_wire ws o) (at_wire ws (o + 1)) (at_wire ws (o + 2)).
  Definition load_oe (N t : nat) (ws : list W) : outer_error F W :=
    let o := num_error_terms N + N in
    mk_outer_error F W (slice ws 0 (num_error_terms N)) (slice ws (num_error_terms N) N) (load_cky ws o) (load_cky ws (o + 3))
      (slice ws (o + 6) t).
  (** stages/inner_error.rs:37-44 *)
  Definition load_ie (M N : nat) (ws : list W) : list (list (elem F W)) :=
    map (fun i => slice ws (i * num_error_terms M) (num_error_terms M)) (seq 0 N).
  (** native/mod.rs:229-243, 107-121: field order *)
  Definition rx_ix (i : rxid) : nat :=
    match i with
    | RxApplication => 0 | RxHashes1 => 1 | RxHashes2 => 2 | RxInnerCollapse => 3 | RxOuterCollapse => 4 | RxComputeV => 5
    | RxPreamble => 6 | RxInnerError => 7 | RxOuterError => 8 | RxQuery => 9 | RxEval => 10
    end.
  Definition ic_ix (i : icid) : nat :=
    match i with
    | Hashes1Circuit => 0 | Hashes2Circuit => 1 | InnerCollapseCircuit => 2 | OuterCollapseCircuit => 3 | ComputeVCircuit => 4
    | PreambleStage => 5 | InnerErrorStage => 6 | OuterErrorStage => 7 | QueryStage => 8 | EvalStage => 9
    | InnerErrorFinalStaged => 10 | OuterErrorFinalStaged => 11 | EvalFinalStaged => 12
    end.
  (** stages/query.rs:196-220, 257-270 *)
  Definition load_cquery (ws : list W) (o : nat) : cquery (elem F W) :=
    mk_cquery (fun i => at_wire ws (o + rx_ix i)) (at_wire ws (o + 11)) (at_wire ws (o + 12)) (at_wire ws (o + 13))
      (at_wire ws (o + 14)) (at_wire ws (o + 15)).
  Definition load_query (ws : list W) : queryout (elem F W) :=
    mk_queryout (fun i => at_wire ws (ic_ix i)) (at_wire ws 13) (load_cquery ws 14) (load_cquery ws 30).
  (** stages/eval.rs:66-78, 102-120 *)
  Definition load_ceval (ws : list W) (o : nat) : ceval (elem F W) :=
    mk_ceval (fun i => at_wire ws (o + rx_ix i)) (at_wire ws (o + 11)) (at_wire ws (o + 12)) (at_wire ws (o + 13)) (at_wire ws (o + 14)).
  Definition load_eval (ws : list W) : evalout (elem F W) :=
    mk_evalout (load_ceval ws 0) (load_ceval ws 15) (at_wire ws 30) (at_wire ws 31) (at_wire ws 32) (at_wire ws 33)
      (at_wire ws 34) (at_wire ws 35).
End Load.
Arguments at_wire {F W}. Arguments slice {F W}. Arguments we {F W}.
Arguments load_uout {F W}. Arguments load_pin {F W}. Arguments load_pre {F W}. Arguments load_cky {F W}. Arguments load_oe {F W}.
Arguments load_ie {F W}. Arguments load_cquery {F W}. Arguments load_query {F W}. Arguments load_ceval {F W}. Arguments load_eval {F W}.

(** ** the five circuits (registered without witness data) *)
Section Staged.
  Variable F : Field.
  Variable cb : F.
  Variables (hs M N : nat).
  Variable P : pparams F.
  Definition fst_out {W : Type} (p : G F W (list (elem F W) * option coverage)) : G F W (list (elem F W)) :=
    gbind p (fun r => GRet (fst r)).
  Definition stage_of (W : Type) (gs : list (list W)) (i : nat) : list W := nth i gs [].
  Definition pre_st := whole (pre_wires hs).
  Definition oe_st := whole (oe_wires N (pp_T P)).
  Definition ie_st := whole (ie_wires M N).
  Definition query_st := whole query_wires.
  Definition eval_st := whole eval_wires.
  (** circuits/hashes_1.rs:185-225 *)
  Definition s_hashes_1 (of_u : BinNums.N -> F) (tag : list BinNums.N) (log2 : nat) : staged F := fun W one gs =>
    fst_out (hashes_1 F W one false cb P of_u tag log2 (load_pre one hs (stage_of W gs 0)) (load_oe one N (pp_T P) (stage_of W gs 1)) None).
  (** circuits/hashes_2.rs:131-165: the preamble is skipped *)
  Definition s_hashes_2 : staged F := fun W one gs =>
    fst_out (hashes_2 F W one false cb P (load_oe one N (pp_T P) (stage_of W gs 1)) None).
  (** circuits/inner_collapse.rs:118-156; enforcing stages of elements adds nothing
      (consistent.rs) *)
  Definition s_inner : staged F := fun W one gs =>
    fst_out (inner_collapse F W one false cb M (load_pre one hs (stage_of W gs 0)) (load_oe one N (pp_T P) (stage_of W gs 1))
               (load_ie M N (stage_of W gs 2)) None).
  (** circuits/outer_collapse.rs:117-151 *)
  Definition s_outer : staged F := fun W one gs =>
    fst_out (outer_collapse F W one false cb N (load_pre one hs (stage_of W gs 0)) (load_oe one N (pp_T P) (stage_of W gs 1)) None).
  (** circuits/compute_v.rs:122-162; the preamble is enforced inside [compute_v] *)
  Definition s_compute_v (k nbits : nat) (gen : F) (fsqrt : F -> option F) (zeta : F) (omega : icid -> F) : staged F := fun W one gs =>
    fst_out (compute_v F W one false cb k M N nbits gen fsqrt zeta omega (load_pre one hs (stage_of W gs 0))
               (load_query one (stage_of W gs 1)) (load_eval one (stage_of W gs 2)) None).
  Definition hashes_stages := [pre_st; oe_st].
  Definition inner_stages := [pre_st; oe_st; ie_st].
  Definition v_stages := [pre_st; query_st; eval_st].
End Staged.
Arguments fst_out {F W}. Arguments stage_of {W}.
