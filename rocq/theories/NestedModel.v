(** The circuits of the other curve: the endoscaling steps as multi-stage circuits,
    the stages they share, and the bridge stages, as they are registered. *)
From Coq Require Import List Arith NArith Bool.
From Verif Require Import FieldDef ArithModel GadgetModel FoldModel EscModel StageModel CircModel PcdModel RegModel CompileModel RecStageModel VerifyModel.
Import ListNotations.
Local Open Scope nat_scope.

(** internal/endoscalar.rs:185-188 [PointsStage::values]; [None] is the failed
    assertion of [InputsLen] *)
Definition pts_values (np : nat) : option nat :=
  match inputs_len np, num_steps np with
  | Some i, Some k => Some (2 * (1 + i + k))
  | _, _ => None
  end.

(** ** wires to points *)
(** staging/builder.rs:140-155 [unenforced_inner] on point gadgets: two wires each,
    x then y (ragu_primitives/src/point.rs:22-36) *)
Section Load.
  Variables (F : Field) (W : Type) (one : W).
  Definition load_point (ws : list W) (j : nat) : point F W :=
    mk_point F W (at_wire one ws (2 * j)) (at_wire one ws (2 * j + 1)).
  Definition load_points (ws : list W) (o len : nat) : list (point F W) := map (fun j => load_point ws (o + j)) (seq 0 len).
End Load.
Arguments load_point {F W}. Arguments load_points {F W}.

Section Nested.
  Variable F : Field.
  Variable zeta : F.
  (** internal/endoscalar.rs:282-331 [EndoscalingStep::witness] as registered (no witness
      data): the endoscalar stage is one wire per bit (ragu_primitives/src/endoscalar.rs:
      33-42), the points stage holds initial, inputs and interstitials (endoscalar.rs:
      162-171).  Nothing is output. *)
  Definition s_esc_step (np i k step : nat) : staged F := fun W one gs =>
    let bits := stage_of gs 0 in let pts := stage_of gs 1 in
    gbind (esc_step F W one zeta false np step (mk_endo W bits None) (load_point one pts 0) (load_points one pts 1 i) (load_points one pts (1 + i) k))
      (fun _ => GRet []).
  (** endoscalar.rs:76-83, 182-188: the two stages; every gadget has as many wires as
      its stage has values *)
  Definition esc_stages (nbits pts : nat) : list (nat * nat) := [whole nbits; whole pts].

  Variables (x0 x1 x2 x3 yc onec hc : F) (lg nbits np : nat).
  (** internal/nested/mod.rs:189-247 [register_all]: what is registered under an index.
      The parents of the bridge stages are the chain of stages/mod.rs:123-156, each
      field two values (stages/mod.rs:81-83, preamble.rs:21, 126-128). *)
  Definition nested_obj (id : ncid) : option (cobj F) :=
    let n := rk_n lg in
    match inputs_len np, num_steps np, pts_values np with
    | Some i, Some k, Some pts =>
        match id with
        | NStep s => obind (step_new np s) (fun s => multi_obj x0 x1 x2 x3 yc onec hc lg (esc_stages nbits pts) (s_esc_step np i k s))
        | NEndoscalar => mask_obj lg (stage_mask n [] nbits)
        | NPoints => mask_obj lg (stage_mask n [nbits] pts)
        | NPointsFinal => mask_obj lg (stage_final_mask n [nbits] pts)
        | NBridgePreamble => mask_obj lg (stage_mask n [] (13 * 2))
        | NBridgeSPrime => mask_obj lg (stage_mask n [13 * 2] (2 * 2))
        | NBridgeInnerError => mask_obj lg (stage_mask n [2 * 2; 13 * 2] (2 * 2))
        | NBridgeOuterError => mask_obj lg (stage_mask n [2 * 2; 2 * 2; 13 * 2] (1 * 2))
        | NBridgeAB => mask_obj lg (stage_mask n [1 * 2; 2 * 2; 2 * 2; 13 * 2] (2 * 2))
        | NBridgeQuery => mask_obj lg (stage_mask n [2 * 2; 1 * 2; 2 * 2; 2 * 2; 13 * 2] (2 * 2))
        | NBridgeF => mask_obj lg (stage_mask n [2 * 2; 2 * 2; 1 * 2; 2 * 2; 2 * 2; 13 * 2] (1 * 2))
        | NBridgeEval => mask_obj lg (stage_mask n [1 * 2; 2 * 2; 2 * 2; 1 * 2; 2 * 2; 2 * 2; 13 * 2] (1 * 2))
        end
    | _, _, _ => None
    end.
End Nested.
Arguments s_esc_step {F}. Arguments nested_obj {F}.
