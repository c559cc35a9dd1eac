(** Endoscaling of many points in steps (crates/ragu_pcd/src/internal/endoscalar.rs). *)
From Coq Require Import List Arith NArith.
From Verif Require Import FieldDef ModDef GadgetModel FoldModel.
Import ListNotations.
Local Open Scope nat_scope.

(** endoscalar.rs:40 *)
Definition ENDOSCALINGS_PER_STEP : nat := 4.
(** endoscalar.rs:43-50 [InputsLen]; [None] is the failed assertion *)
Definition inputs_len (num_points : nat) : option nat :=
  match num_points with O => None | S i => Some i end.
(** endoscalar.rs:52-60 [num_steps]; [div_ceil] *)
Definition num_steps (num_points : nat) : option nat :=
  match inputs_len num_points with
  | None => None
  | Some inputs =>
      let steps := (inputs + (ENDOSCALINGS_PER_STEP - 1)) / ENDOSCALINGS_PER_STEP in
      Some (if 1 <? steps then steps else 1)
  end.

(** endoscalar.rs:98-160 [PointsWitness], [PointsWitness::new].  The curve is an
    [FMod] over its scalar field; wNAF multiplication is the scalar action and
    [batch_normalize] the identity on group elements. *)
Section Witness.
  Context {Fs : Field} {E : FMod Fs}.
  Record points_witness := mk_points { pw_initial : E; pw_inputs : list E; pw_interstitials : list E }.
  (** the loop over one chunk *)
  Definition esc_chunk (s : Fs) (acc : E) (chunk : list E) : E :=
    fold_left (fun acc input => madd (mscale s acc) input) chunk acc.
  (** the loop over the chunks *)
  Fixpoint esc_chunks (s : Fs) (acc : E) (cs : list (list E)) : list E :=
    match cs with
    | [] => []
    | c :: r => let acc := esc_chunk s acc c in acc :: esc_chunks s acc r
    end.
  Definition points_new (num_points : nat) (s : Fs) (points : list E) : option points_witness :=
    if negb (Nat.eqb (length points) num_points) then None else
    match points with
    | [] => None
    | initial :: inputs =>
        let ints := match inputs with
                    | [] => Some [initial]
                    | _ => option_map (esc_chunks s initial) (chunks ENDOSCALINGS_PER_STEP inputs)
                    end in
        match ints, num_steps num_points with
        | Some l, Some k => if Nat.eqb (length l) k then Some (mk_points initial inputs l) else None
        | _, _ => None
        end
    end.
End Witness.
Arguments points_witness {Fs}. Arguments mk_points {Fs E}. Arguments pw_initial {Fs E}. Arguments pw_inputs {Fs E}. Arguments pw_interstitials {Fs E}.

(** endoscalar.rs:230-242 [EndoscalingStep::new] *)
Definition step_new (num_points step : nat) : option nat :=
  match num_steps num_points with
  | None => None
  | Some k => if step <? k then Some step else None
  end.
(** endoscalar.rs:245-249 [input_range]: the indices of the half open range *)
Definition input_range (num_points step : nat) : option (list nat) :=
  match inputs_len num_points with
  | None => None
  | Some i =>
      let start := step * ENDOSCALINGS_PER_STEP in
      let end_ := Nat.min (start + ENDOSCALINGS_PER_STEP) i in
      Some (seq start (end_ - start))
  end.

(** endoscalar.rs:277-331 [EndoscalingStep::witness] after the stages are loaded:
    the wires of the endoscalar, the initial point, the inputs and the interstitials
    are arguments (loading a stage emits no constraint here: [unenforced]).  The
    assertion on an empty range and out of range indices are [GErr].  Equality of
    points is the derived [enforce_equal_gadget]: x then y. *)
Section Step.
  Variables (F : Field) (W : Type) (one : W) (zeta : F).
  Local Notation G := (G F W).
  Local Notation point := (point F W).
  Local Notation elem := (elem F W).
  Fixpoint esc_loop (endoscalar : endo W) (inputs : list point) (acc : point) (nonzero : elem) : G (point * elem) :=
    match inputs with
    | [] => GRet (acc, nonzero)
    | q :: r =>
        scaled <- en_group_scale F W zeta endoscalar acc ;;
        an <- p_add_incomplete F W scaled q (Some nonzero) ;;
        match snd an with
        | Some nz => esc_loop endoscalar r (fst an) nz
        | None => GErr
        end
    end.
  Fixpoint pick {T : Type} (l : list T) (is : list nat) : option (list T) :=
    match is with
    | [] => Some []
    | i :: r => match nth_error l i, pick l r with Some x, Some t => Some (x :: t) | _, _ => None end
    end.
  Definition p_enforce_equal (p q : point) : G unit :=
    g_equal F W (ew F W (px F W p)) (ew F W (px F W q)) ;;;
    g_equal F W (ew F W (py F W p)) (ew F W (py F W q)).
  Definition esc_step (wit : bool) (num_points step : nat) (endoscalar : endo W) (initial : point) (inputs interstitials : list point) : G unit :=
    match (match step with O => Some initial | S i => nth_error interstitials i end), input_range num_points step with
    | Some acc, Some (i :: is) =>
        match pick inputs (i :: is), nth_error interstitials step with
        | Some ins, Some out =>
            an <- esc_loop endoscalar ins acc (e_one F W one wit) ;;
            e_invert F W one (snd an) ;;;
            p_enforce_equal (fst an) out
        | _, _ => GErr
        end
    | _, _ => GErr
    end.
End Step.
