(** C50: circuit code does not look at its driver.  [grel] and the relations on
    gadget data are ParSpec.v; [same_circuit] and [generic] are CompileSpec.v. *)
From Coq Require Import List Arith NArith ZArith Bool Lia.
From Verif Require Import FieldDef GF ArithModel ArithSpec GadgetModel GadgetSpec SpongeModel EscModel PcdModel AppModel RecModel
  CircModel EmuModel CompileModel CompileSpec ParSpec ParProofs ParProofs2 ParProofs3 EmuProofs Props_Sponge.
Import ListNotations.
Local Open Scope nat_scope.

(** Every recursion circuit, the endoscaling step and the step adapters make the
    same driver calls and return the same wires with or without witness data:
    registration (which runs without) and proving (which runs with) build the
    same circuit.  [prerel eq false] and so on: the same wires, the left side
    without values. *)
Section Same.
Variable F : Field.
Variable cb : F.
Let R := @eq wref.
Theorem C50_hashes_1 : forall (P : pparams F) of_u tag log2 pre pre' oe oe' inst,
  prerel R false pre pre' -> oerel R false oe oe' ->
  same_circuit fst (hashes_1 F wref WOne false cb P of_u tag log2 pre oe None)
                   (hashes_1 F wref WOne true cb P of_u tag log2 pre' oe' inst).
Proof. intros. eapply same_of; [|apply hashes_1_p; try eassumption; reflexivity]. intros a b H1. apply H1. Qed.
Theorem C50_hashes_2 : forall (P : pparams F) oe oe' inst, oerel R false oe oe' ->
  same_circuit fst (hashes_2 F wref WOne false cb P oe None) (hashes_2 F wref WOne true cb P oe' inst).
Proof. intros. eapply same_of; [|apply hashes_2_p; try eassumption; reflexivity]. intros a b H1. apply H1. Qed.
Theorem C50_inner : forall M pre pre' oe oe' ie ie' inst,
  prerel R false pre pre' -> oerel R false oe oe' -> Forall2 (Forall2 (erel R false)) ie ie' ->
  same_circuit fst (inner_collapse F wref WOne false cb M pre oe ie None) (inner_collapse F wref WOne true cb M pre' oe' ie' inst).
Proof. intros. eapply same_of; [|apply inner_collapse_p; try eassumption; reflexivity]. intros a b H2. apply H2. Qed.
Theorem C50_outer : forall N pre pre' oe oe' inst, prerel R false pre pre' -> oerel R false oe oe' ->
  same_circuit fst (outer_collapse F wref WOne false cb N pre oe None) (outer_collapse F wref WOne true cb N pre' oe' inst).
Proof. intros. eapply same_of; [|apply outer_collapse_p; try eassumption; reflexivity]. intros a b H1. apply H1. Qed.
Theorem C50_compute_v : forall k M N nbits gen fsqrt zeta omega pre pre' q q' e e' inst,
  prerel R false pre pre' -> qorel R false q q' -> eorel R false e e' ->
  same_circuit fst (compute_v F wref WOne false cb k M N nbits gen fsqrt zeta omega pre q e None)
                   (compute_v F wref WOne true cb k M N nbits gen fsqrt zeta omega pre' q' e' inst).
Proof. intros. eapply same_of; [|apply compute_v_p; try eassumption; reflexivity]. intros a b H2. apply H2. Qed.
Theorem C50_endoscaling : forall zeta np step en en' i i' inputs inputs' interstitials interstitials',
  enrel R false en en' -> ptrel R false i i' -> Forall2 (ptrel R false) inputs inputs' ->
  Forall2 (ptrel R false) interstitials interstitials' ->
  same_circuit (fun _ => []) (esc_step F wref WOne zeta false np step en i inputs interstitials)
                             (esc_step F wref WOne zeta true np step en' i' inputs' interstitials').
Proof. intros. eapply same_of; [|apply esc_step_p; try eassumption; reflexivity]. constructor. Qed.
Theorem C50_adapter : forall hs sl sr so l l' r r' o o', ecrel R false l l' -> ecrel R false r r' -> ecrel R false o o' ->
  same_circuit (fun x => x) (adapter_write F wref WOne false hs sl sr so l r o) (adapter_write F wref WOne true hs sl sr so l' r' o').
Proof. intros. eapply same_of; [|apply adapter_write_p; try eassumption; reflexivity]. auto. Qed.
Theorem C50_rerandomize : forall hs sfx trivial d d', datarel false d d' ->
  same_circuit (fun x => x) (rerandomize_circuit F wref WOne false hs sfx trivial d) (rerandomize_circuit F wref WOne true hs sfx trivial d').
Proof. intros. eapply same_of; [|apply rerandomize_p; try eassumption; reflexivity]. auto. Qed.
End Same.
Print Assumptions C50_hashes_1.
Print Assumptions C50_hashes_2.
Print Assumptions C50_inner.
Print Assumptions C50_outer.
Print Assumptions C50_compute_v.
Print Assumptions C50_endoscaling.
Print Assumptions C50_adapter.
Print Assumptions C50_rerandomize.

(** The wired emulator returns what the run computes, constraints unchecked; a
    run accepted by the simulator returns the same on the emulator. *)
Theorem C50_wired : forall (F : Field) (A : Type) (p : G F F A),
  emulate_wired p = option_map fst (emits p) /\
  forall s a s', simulate p s = Some (a, s') -> emulate_wired p = Some a.
Proof. intros F A p. split; [apply emulate_emits|apply simulate_emulate]. Qed.
Print Assumptions C50_wired.

(** The wireless emulator, which has no wires at all, computes the same values. *)
Theorem C50_wireless : forall (F : Field) (p : circuit F), generic p ->
  forall r, emulate_wired (p F f1) = Some r ->
  exists r', emulate_wireless (p unit tt) = Some r' /\ map (ev F unit) r' = map (ev F F) r.
Proof.
  intros F p H r E.
  destruct (wireless_wired (fun _ _ => True) _ _ _ (fun _ _ => I) (H unit F tt f1 (fun _ _ => True) I) r E) as (r' & E' & R).
  exists r'. split; [exact E'|]. eapply erel_values; eauto.
Qed.
Print Assumptions C50_wireless.

(** a header of two elements: the two runs differ exactly in the witness values *)
Definition ex_re (wit : bool) (d : list F97) : G F97 wref (list (elem F97 wref)) :=
  rerandomize_circuit F97 wref WOne wit 4 (Some (l97 9)) (Some (l97 1)) d.
(** the witness values of a program in call order, and its number of calls *)
Fixpoint prog_values (p : prog F97) : list Z :=
  match p with
  | PGate a b c d k => v97 a :: v97 b :: v97 c :: v97 d :: prog_values k
  | PAlloc v k => v97 v :: prog_values k
  | PMul _ _ _ k | PAdd _ k | PEnforce _ k | PClone _ k | PDrop _ k | PRoutine _ _ _ _ k => prog_values k
  | PEnd => []
  end.
Example C50_rerandomize_ex :
  datarel false [l97 0; l97 0] [l97 5; l97 6] /\
  prog_values (fst (compile (ex_re true [l97 5; l97 6]) 4)) = [5; 6; 0; 9]%Z /\
  prog_values (fst (compile (ex_re false [l97 0; l97 0]) 4)) = [0; 0; 0; 0]%Z /\
  option_map (map (ew F97 wref)) (snd (compile (ex_re true [l97 5; l97 6]) 4)) =
    Some (map WVar [4; 5; 6; 7; 9; 10; 11; 8; 4; 5; 6; 7]).
Proof. split; [reflexivity|]. repeat split; vm_compute; reflexivity. Qed.

(** a circuit whose witness closure can fail: invert the first of two allocated
    elements, multiply by the second *)
Definition ex_inv {F : Field} (wit : bool) (v w : F) (W : Type) (one : W) : G F W (list (elem F W)) :=
  gbind (e_alloc F W (if wit then Some v else None)) (fun x =>
  gbind (e_alloc F W (if wit then Some w else None)) (fun y =>
  gbind (e_invert F W one x) (fun i => gbind (e_mul F W i y) (fun r => GRet [r])))).
Lemma ex_inv_p {F : Field} {W1 W2 : Type} (RW : W1 -> W2 -> Prop) hv (o1 : W1) (o2 : W2) wit1 wit2 (v w : F) : RW o1 o2 -> wrel hv wit1 wit2 ->
  grel RW hv (Forall2 (erel RW hv)) (ex_inv wit1 v w W1 o1) (ex_inv wit2 v w W2 o2).
Proof.
  intros Ho Hw. unfold ex_inv.
  assert (V : forall u : F, vrel hv (if wit1 then Some u else None) (if wit2 then Some u else None))
    by (intros u; destruct hv; cbn in *; subst; reflexivity).
  gp.
Qed.
Example C50_failing_ex :
  same_circuit (fun r => r) (ex_inv false (l97 0) (l97 7) wref WOne) (ex_inv true (l97 0) (l97 7) wref WOne) /\
  option_map (map (ew F97 wref)) (snd (compile (ex_inv true (l97 0) (l97 7) wref WOne) 4)) = None /\
  prog_values (fst (compile (ex_inv true (l97 0) (l97 7) wref WOne) 4)) = [0; 7]%Z /\
  option_map (map (ew F97 wref)) (snd (compile (ex_inv true (l97 2) (l97 7) wref WOne) 4)) = Some [WVar 12] /\
  prog_values (fst (compile (ex_inv true (l97 2) (l97 7) wref WOne) 4)) = [2; 7; 2; 49; 1; 0; 49; 7; 52; 0]%Z.
Proof.
  split. { eapply same_of; [|apply (ex_inv_p eq false WOne WOne false true (l97 0) (l97 7)); reflexivity]. auto. }
  repeat split; vm_compute; reflexivity.
Qed.
Example C50_wireless_ex : generic (F := F97) (ex_inv true (l97 2) (l97 7)) /\
  option_map (map (fun e => option_map v97 (ev F97 unit e))) (emulate_wireless (ex_inv true (l97 2) (l97 7) unit tt)) = Some [Some 52%Z] /\
  option_map (map (fun e => v97 (ew F97 F97 e))) (emulate_wired (ex_inv true (l97 2) (l97 7) F97 f1)) = Some [52%Z].
Proof.
  split. { intros W1 W2 o1 o2 RW Ho. apply ex_inv_p; [exact Ho|reflexivity]. }
  split; vm_compute; reflexivity.
Qed.
