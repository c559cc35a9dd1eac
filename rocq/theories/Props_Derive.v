(** Property theorems C60 (derived gadgets, wire maps, promotion, serialization,
    routine prediction). *)
From Coq Require Import List Arith ZArith NArith Bool Lia Ring Field.
From Verif Require Import FieldDef GF ModDef ArithModel ArithSpec TModel TProofs GadgetModel GadgetSpec GadgetProofs PointSpec PointProofs
  RecModel EmuModel ParSpec ParProofs EmuProofs TxzProofs PointExample DeriveModel DeriveSpec DeriveProofs DeriveProofs2 DeriveProofs3.
Import ListNotations.
Local Open Scope nat_scope.

(** the three derives read a field's attributes the same way: exactly one of
    value, wire, gadget, phantom, or none for a gadget; the last are the fields
    whose consistency is enforced *)
Theorem C60_attrs : forall a t,
  (classify a = Some t <-> declared a t) /\
  (declared a t -> (should_enforce a = true <-> t = T_gadget)) /\
  (serialized a = true <-> ~ In A_skip a /\ ~ In A_phantom a).
Proof.
  intros a t. split; [apply classify_ok|]. split; [intros D; apply enforce_ok; now apply classify_ok|].
  unfold serialized. rewrite negb_true_iff, orb_false_iff, <- !not_true_iff_false, !has_in. reflexivity.
Qed.
Print Assumptions C60_attrs.
Example C60_attrs_ex : declared [A_other; A_skip] T_gadget /\ classify [A_wire; A_value] = None /\ should_enforce [A_wire; A_gadget] = true.
Proof. repeat split. apply classify_ok. reflexivity. Qed.

(** mapping a gadget converts its wires from left to right, each once, stopping
    at the first error; the result has those wires, the same type and, if the
    destination carries values, the same values *)
Theorem C60_map : forall (F : Field) (St E W W' : Type) (cv : St -> W -> St * (W' + E)) (g : node F W) wit dw s,
  typed wit g -> (dw = true -> wit = true) ->
  match visit cv s (wires g) with
  | (s', inl ws') => exists g', map_gadget cv dw g s = Some (s', inl g') /\ typed dw g' /\ wires g' = ws' /\ hollow dw g' = hollow dw g
  | (s', inr e) => map_gadget cv dw g s = Some (s', inr e)
  end.
Proof. intros F St E W W' cv g wit dw s T D. exact (map_ok cv g wit dw T D s). Qed.
Print Assumptions C60_map.

(** composing two stateless maps is mapping by the composition *)
Theorem C60_compose : forall (F : Field) (X Y V : Type) (f : X -> Y) (h : Y -> V) (g : node F X) wit, typed wit g ->
  exists g', remap (fun s w => (s, inl (f w))) wit g = Some g' /\
    remap (fun s w => (s, inl (h w))) wit g' = remap (fun s w => (s, inl (h (f w)))) wit g /\
    remap (fun s w => (s, inl (h w))) wit g' <> None.
Proof.
  intros F X Y V f h g wit T. destruct (remap_pure f wit wit g T (fun x => x)) as (g' & E & T' & W' & H). exists g'. split; [exact E|].
  destruct (remap_pure h wit wit g' T' (fun x => x)) as (k & Ek & Tk & Wk & Hk). destruct (remap_pure (fun w => h (f w)) wit wit g T (fun x => x)) as (k' & Ek' & Tk' & Wk' & Hk').
  unfold pure in *. rewrite Ek, Ek'. split; [|discriminate]. f_equal. apply hollow_inj.
  - destruct wit; [congruence|]. rewrite (hollow_novalues k), (hollow_novalues k') by assumption. congruence.
  - rewrite Wk, Wk', W'. apply map_map.
Qed.
Print Assumptions C60_compose.

(** the number of wires depends on the type alone; the emulator extracts the
    wires in order; cloning changes nothing; stripping keeps all but the wires *)
Theorem C60_wires : forall (F : Field) (W : Type) (g : node F W) wit, typed wit g ->
  num_wires g = Some (length (wires g)) /\
  (forall (W' : Type) (h : node F W') wit', typed wit' h -> hollow false h = hollow false g -> num_wires h = num_wires g) /\
  emulator_wires g = Some (wires g) /\
  clone wit g = Some g /\ remap clone_wires wit g = Some g /\
  remap strip_wires wit g = Some (hollow wit g).
Proof.
  intros F W g wit T. split; [now apply (num_wires_ok wit)|]. split.
  { intros W' h wit' Th H. rewrite (num_wires_ok wit g T), (num_wires_ok wit' h Th). f_equal.
    transitivity (length (wires (hollow false h))); [rewrite wires_hollow; now rewrite map_length|]. now rewrite H, wires_hollow, map_length. }
  split; [now apply (emulator_wires_ok wit)|]. split; [now apply clone_ok|]. split; [now apply remap_clone|].
  destruct (remap_pure (fun _ : W => tt) wit wit g T (fun x => x)) as (g' & E & T' & W' & H).
  change (remap strip_wires wit g) with (remap (pure (fun _ : W => tt)) wit g). rewrite E. f_equal.
  assert (U : forall b (h : node F unit), hollow b h = hollow b g -> hollow wit h = h -> b = wit -> h = hollow wit g) by (intros b h A B ->; congruence).
  apply (U wit); [assumption| |reflexivity].
  assert (V : forall (h : node F unit) b, (b = true \/ typed false h) -> hollow b h = h); [|destruct wit; apply V; auto].
  clear. intros h. assert (K : hollow true h = h).
  { induction h as [w|v| | |l IH|a b I1 I2|g IH|n l IH|i fs IH|g IH] using node_ind2; try reflexivity.
    - now destruct w.
    - rewrite hollow_array. f_equal. rewrite <- (map_id l) at 2. apply map_ext_in. now apply Forall_forall.
    - cbn [hollow]. congruence.
    - cbn [hollow]. congruence.
    - rewrite hollow_vec. f_equal. rewrite <- (map_id l) at 2. apply map_ext_in. now apply Forall_forall.
    - rewrite hollow_struct. f_equal. rewrite <- (map_id fs) at 2. apply map_ext_in. rewrite Forall_forall in IH. intros [a x] Hx. cbn [fst snd]. f_equal. now apply (IH (a, x)).
    - cbn [hollow]. congruence. }
  intros b [->|T]; [exact K|]. destruct b; [exact K|]. rewrite <- (hollow_novalues h T). exact K.
Qed.
Print Assumptions C60_wires.

(** demoting drops the values and nothing else, commutes with mapping, and a
    promoted [Boolean] has its wire back *)
Theorem C60_demote : forall (F : Field) (St E W W' : Type) (cv : St -> W -> St * (W' + E)) (g : node F W) wit dw s,
  typed wit g -> (dw = true -> wit = true) ->
  exists h, demote g = Some (NDemoted h) /\ typed wit (NDemoted h) /\ wires h = wires g /\ hollow false h = hollow false g /\
    Forall (fun v => v = None) (values h) /\
    match map_gadget cv dw g s with
    | Some (s', inl g') => exists d', map_gadget cv dw (NDemoted h) s = Some (s', inl d') /\ demote g' = Some d'
    | Some (s', inr e) => map_gadget cv dw (NDemoted h) s = Some (s', inr e)
    | None => False
    end.
Proof.
  intros F St E W W' cv g wit dw s T D. destruct (demote_ok wit g T) as (h & Eh & Th & Wh & Hh). exists h. split; [assumption|]. split; [exact Th|].
  split; [assumption|]. split; [assumption|]. split.
  - clear - Th. induction h as [w|v| | |l IH|a b I1 I2|g IH|n l IH|i fs IH|g IH] using node_ind2; try contradiction; try (constructor; fail).
    + rewrite values_array. apply typed_array in Th. apply Forall_concat. apply Forall_map. rewrite Forall_forall in *. auto.
    + destruct Th. cbn [values]. apply Forall_app. auto.
    + cbn [values]. auto.
    + rewrite values_vec. apply typed_vec in Th. destruct Th as [_ Th]. apply Forall_concat. apply Forall_map. rewrite Forall_forall in *. auto.
    + rewrite values_struct. apply typed_struct in Th. destruct Th as [_ Th]. apply Forall_concat. apply Forall_map. rewrite Forall_forall in *.
      intros [a x] Hx. specialize (Th _ Hx). specialize (IH _ Hx). cbn [snd] in *. unfold tfield in Th. destruct x; try (exact (IH (proj2 Th))).
      * constructor.
      * destruct Th as [_ Th]. constructor; [|constructor]. destruct v; [|reflexivity]. assert (X : false = true) by (apply Th; discriminate). discriminate.
      * constructor.
    + cbn [values typed] in *. auto.
  - exact (demote_map cv wit dw g (NDemoted h) s T D Eh).
Qed.
Print Assumptions C60_demote.
Theorem C60_promote : forall (F : Field) (W : Type) (b : bool_g W) (v : option bool),
  exists d : node F W, demote (n_bool b) = Some d /\ promote_bool d v = Some (n_bool (mk_bool W (bw W b) v)).
Proof. intros F W [w v'] v. eexists. split; reflexivity. Qed.
Print Assumptions C60_promote.

(** two gadgets of one type: the constraints say their wires are equal, one
    constraint per wire; the simulator accepts exactly then *)
Theorem C60_equal : forall (F : Field) (a b : node F F) wit, typed wit a -> typed wit b -> hollow false a = hollow false b ->
  (forall r, holds (enforce_equal F F a b) r <-> wires a = wires b) /\
  (forall s, wires a = wires b -> simulate (enforce_equal F F a b) s = Some (tt, bump s 0 0 (length (wires a)))) /\
  (forall s, wires a <> wires b -> simulate (enforce_equal F F a b) s = None).
Proof.
  intros F a b wit Ta Tb H. destruct (equal_ok F a b wit wit Ta Tb H) as (P1 & P2 & P3). split; [intros []; rewrite P1; tauto|]. split; [exact P2|].
  intros s N. destruct (simulate _ s) as [x|] eqn:E; [|reflexivity]. elim N. eapply P3, E.
Qed.
Print Assumptions C60_equal.

(** consistency without witness values: every [Boolean] wire is 0 or 1 and every
    [Point] is on the curve (and nothing else is constrained) *)
Theorem C60_consistent : forall (F : Field) (cb : F) (g : node F F), typed false g -> undemoted g ->
  forall r, holds (enforce_consistent F F f1 cb g) r <->
    Forall (fun b => fst b = f0 \/ fst b = f1) (booleans g) /\ Forall (fun p => on_curve cb (fst p)) (points g).
Proof.
  intros F cb g T U []. pose proof (consistent_ok F cb g false T U tt) as H. cbn in H. rewrite H. unfold fine, bool_fine, point_fine.
  assert (E : Forall (fun p : F * F * option (F * F) => (false = true -> snd p = Some (fst p)) /\ on_curve cb (fst p)) (points g) <-> Forall (fun p => on_curve cb (fst p)) (points g)).
  { rewrite !Forall_forall. split; intros K p Ip; [now apply K|]. split; [discriminate|now apply K]. }
  rewrite E. tauto.
Qed.
Print Assumptions C60_consistent.
(** with values the simulator accepts iff wires and values also agree *)
Theorem C60_consistent_run : forall (F : Field) (cb : F) (g : node F F), typed true g -> undemoted g ->
  forall s, simulate (enforce_consistent F F f1 cb g) s <> None <->
    Forall (fun b => exists v, snd b = Some v /\ fst b = fe F v) (booleans g) /\
    Forall (fun p => snd p = Some (fst p) /\ on_curve cb (fst p)) (points g).
Proof.
  intros F cb g T U s. pose proof (consistent_ok F cb g true T U s) as H. unfold fine, bool_fine, point_fine in H.
  assert (E : Forall (fun p : F * F * option (F * F) => (true = true -> snd p = Some (fst p)) /\ on_curve cb (fst p)) (points g) <-> Forall (fun p => snd p = Some (fst p) /\ on_curve cb (fst p)) (points g)).
  { rewrite !Forall_forall. split; intros K p Ip; specialize (K p Ip); tauto. }
  rewrite E in H. rewrite <- H. destruct (simulate _ s) as [[[] s']|]; split; try (intros; discriminate); eauto. intros K; now elim K. intros (? & K). discriminate.
Qed.
Print Assumptions C60_consistent_run.

(** serializing writes the serialized wires as elements, left to right, with their
    values: any buffer receives the same calls as if they were written one by one *)
Theorem C60_write : forall (F : Field) (W : Type) (g : node F W) wit, typed wit g -> plain g ->
  exists es, map (ew F W) es = wires (prune g) /\ map (ev F W) es = map val_fe (values (prune g)) /\
    write_gadget vec_write g [] = GRet es /\
    write_gadget unit_write g tt = GRet tt /\
    (forall n, write_gadget count_write g n = GRet (n + length (wires (prune g)))) /\
    (forall B (write : B -> elem F W -> G F F B) buf,
       let one_by_one := fold_left (fun p e => gbind p (fun b => write b e)) es (GRet buf) in
       (forall r, holds (write_gadget write g buf) r <-> holds one_by_one r) /\
       (forall s, simulate (write_gadget write g buf) s = simulate one_by_one s)) /\
    (forall vs s buf, map (ev F W) es = map Some vs ->
       simulate (write_gadget (pipe_write vec_write true) g buf) s =
       Some (buf ++ map (fun v => mk_elem F F v (Some v)) vs, bump s (length vs) 0 0)).
Proof.
  intros F W g wit T P. destruct (write_ok g wit T P) as (es & [Cw Cv] & W1 & W2). exists es. split; [assumption|]. split; [assumption|].
  assert (Fl : forall {A} (l : list A) (x : list A), fold_left (fun b e => b ++ [e]) l x = x ++ l).
  { intros A l. induction l as [|y r IH]; intros x; [cbn; now rewrite app_nil_r|]. cbn [fold_left]. rewrite IH, <- app_assoc. reflexivity. }
  split; [unfold vec_write; rewrite (W2 W (list (elem F W)) (fun b e => b ++ [e])), Fl; reflexivity|].
  split; [unfold unit_write; rewrite (W2 W unit (fun b e => b)); f_equal; now destruct (fold_left _ _ _)|].
  split.
  { intros n. unfold count_write. rewrite (W2 W nat (fun b e => S b)). f_equal. rewrite <- Cw, map_length. clear. revert n. induction es as [|e r IH]; intros n; cbn; [lia|]. rewrite IH. lia. }
  split.
  - intros B write buf. cbv zeta.
    assert (S' : same (write_gadget write g buf) (fold_left (fun p e => gbind p (fun b => write b e)) es (GRet buf))).
    { eapply same_trans; [apply W1|]. assert (H : forall es p, same (gbind p (fun b => write_all write es b)) (fold_left (fun p e => gbind p (fun b => write b e)) es p)); [|exact (H es (GRet buf))].
      clear. intros es. induction es as [|e r IH]; intros p; cbn [write_all fold_left].
      - split; [intros x; rewrite holds_bind; cbn; split; [intros (? & ? & <-)|]; eauto|intros s; rewrite sim_bind; destruct (simulate p s) as [[? ?]|]; reflexivity].
      - eapply same_trans; [|apply IH]. split.
        + intros x. rewrite !holds_bind. split.
          * intros (b & H1 & H2). rewrite holds_bind in H2. destruct H2 as (c & H2 & H3). exists c. split; [|assumption]. rewrite holds_bind. eauto.
          * intros (c & H1 & H3). rewrite holds_bind in H1. destruct H1 as (b & H1 & H2). exists b. split; [assumption|]. rewrite holds_bind. eauto.
        + intros s. rewrite !sim_bind. destruct (simulate p s) as [[b s']|]; [|reflexivity]. rewrite sim_bind. reflexivity. }
    exact S'.
  - intros vs s buf E. rewrite (proj2 (W1 _ _ buf)). unfold vec_write. rewrite (pipe_all (fun b e => b ++ [e]) vs es buf s E). now rewrite Fl.
Qed.
Print Assumptions C60_write.

(** the emulator without wires takes a known prediction as the answer and
    executes only without one; a failing prediction or execution fails *)
Theorem C60_short_circuit : forall (F : Field) (I O A : Type) (predict : I -> G F unit (prediction O A)) (execute : I -> A -> G F unit O) i o,
  emulate_wireless (short_circuit predict execute i) = Some o <->
  exists p, emulate_wireless (predict i) = Some p /\
    ((exists aux, p = Known o aux) \/ (exists aux, p = Unknown aux /\ emulate_wireless (execute i aux) = Some o)).
Proof.
  intros F I O A predict execute i o. rewrite short_wl. destruct (emulate_wireless (predict i)) as [[o' a|a]|]; split.
  - intros E. injection E as <-. eexists. split; [reflexivity|]. eauto.
  - intros (p & E & [(aux & ->)|(aux & -> & _)]); [now injection E as -> ->|discriminate].
  - intros E. eexists. split; [reflexivity|]. eauto.
  - intros (p & E & [(aux & ->)|(aux & -> & H)]); [discriminate|]. now injection E as ->.
  - discriminate.
  - intros (p & E & _). discriminate.
Qed.
Print Assumptions C60_short_circuit.
Example C60_short_circuit_ex :
  emulate_wireless (short_circuit (F := F97) (fun i : nat => GRet (Known (i + 1) tt)) (fun _ _ => GErr) 4) = Some 5 /\
  emulate_wireless (short_circuit (F := F97) (fun i : nat => GRet (Unknown i)) (fun i a => GRet (i * a)) 4) = Some 16.
Proof. split; reflexivity. Qed.

(** the routine t(x,z): answering from its prediction and executing it give the
    same element on the emulator without wires, the one the simulator computes
    by executing it with the predicted auxiliary data; all fail on a zero input;
    without values all succeed without values *)
Theorem C60_routine : forall (F : Field) k (x z : F),
  let run q v w := emulate_wireless (q (mk_elem F unit tt v, mk_elem F unit tt w)) in
  let pred := fun i => gbind (g_txz_predict F unit k (fst i) (snd i)) (fun p => GRet (Known (fst p) (snd p))) in
  let exec := fun i aux => g_txz_execute F unit tt k (fst i) (snd i) aux in
  (x <> f0 -> z <> f0 -> exists t, t_xz k x z = Some t /\
     run (short_circuit pred exec) (Some x) (Some z) = Some (mk_elem F unit tt (Some t)) /\
     run (default_routine pred exec) (Some x) (Some z) = Some (mk_elem F unit tt (Some t)) /\
     exists p, emulate_wireless (pred (mk_elem F unit tt (Some x), mk_elem F unit tt (Some z))) = Some p /\
       forall s, simulate (g_txz_execute F F f1 k (hon x) (hon z) (into_aux p)) s = Some (hon t, bump s 0 (6 * k + 10) (12 * k + 20))) /\
  (x = f0 \/ z = f0 -> run (short_circuit pred exec) (Some x) (Some z) = None /\ run (default_routine pred exec) (Some x) (Some z) = None) /\
  run (short_circuit pred exec) None None = Some (mk_elem F unit tt None) /\
  run (default_routine pred exec) None None = Some (mk_elem F unit tt None).
Proof.
  intros F k x z run pred exec. unfold run. split; [|split; [|split]].
  - intros Nx Nz. rewrite t_xz_ok. eexists. split; [reflexivity|]. pose proof (predict_wl F k x z Nx Nz) as P. unfold txz_p, wl in P.
    split; [rewrite short_wl; unfold pred; rewrite P; reflexivity|].
    assert (X : forall s, simulate (g_txz_execute F F f1 k (hon x) (hon z) (Some (finv x, finv z))) s = Some (hon (t_spec F (2 ^ k) x z), bump s 0 (6 * k + 10) (12 * k + 20)))
      by (intros s; now apply execute_s).
    split; [|eexists; split; [unfold pred; exact P|exact X]].
    rewrite default_wl. unfold pred. rewrite P. cbn [into_aux]. apply execute_wl_value. eapply simulate_emulate. apply (X (mk_simst 0 0 0)).
  - intros H. pose proof (predict_wl_zero F k x z H) as P. unfold txz_p, wl in P. rewrite short_wl, default_wl. unfold pred. rewrite P. auto.
  - reflexivity.
  - rewrite default_wl. cbn. apply execute_wl.
Qed.
Print Assumptions C60_routine.

(** ** examples *)
Ltac decl := apply classify_ok; reflexivity.
Lemma typed_elem (F : Field) (W : Type) wit (e : elem F W) : (ev F W e <> None <-> wit = true) -> typed wit (n_elem e).
Proof.
  intros H. apply typed_struct. split; [now exists e|]. constructor; [decl|]. constructor; [|constructor]. split; [decl|]. rewrite <- H.
  destruct (ev F W e); split; intros A B; try discriminate; now elim A.
Qed.
Lemma typed_bool (F : Field) (W : Type) wit (b : bool_g W) : (bv W b <> None <-> wit = true) -> typed wit (n_bool b : node F W).
Proof.
  intros H. apply typed_struct. split; [now exists b|]. constructor; [decl|]. constructor; [|constructor]. split; [decl|]. rewrite <- H.
  destruct (bv W b); split; intros A B; try discriminate; now elim A.
Qed.
Lemma typed_point (F : Field) (W : Type) wit (p : point F W) :
  (ev F W (px F W p) <> None <-> wit = true) -> (ev F W (py F W p) <> None <-> wit = true) -> typed wit (n_point p).
Proof.
  intros Hx Hy. apply typed_struct. split; [now exists p|].
  constructor; [split; [decl|now apply typed_elem]|]. constructor; [split; [decl|now apply typed_elem]|]. constructor; [decl|constructor].
Qed.
Lemma typed_suffix (F : Field) (W : Type) wit (g : node F W) (e : elem F W) : typed wit g -> (ev F W e <> None <-> wit = true) -> typed wit (n_suffix g e).
Proof.
  intros Hg He. apply typed_struct. split; [now exists g, e|]. constructor; [|constructor; [split; [decl|now apply typed_elem]|constructor]].
  destruct g; try contradiction; (split; [decl|exact Hg]).
Qed.
Local Notation N := (node F97 F97).
Definition dx_e (v : bool) (x : Z) : elem F97 F97 := mk_elem F97 F97 (l97 x) (if v then Some (l97 x) else None).
Definition dx_b (v : bool) (x : Z) (b : bool) : bool_g F97 := mk_bool F97 (l97 x) (if v then Some b else None).
(** a struct with a point, booleans, skipped vector, wire and value, a box *)
Definition dx (v : bool) (y bit w : Z) : N :=
  NStruct I_derived
    [ ([A_gadget], n_point (mk_point F97 F97 (dx_e v 1) (dx_e v y)));
      ([], NArray [n_bool (dx_b v 1 true); n_bool (dx_b v bit false)]);
      ([A_skip; A_gadget], NVec 2 [n_elem (dx_e v 7); n_elem (dx_e v 8)]);
      ([A_wire; A_skip], NWire (l97 w));
      ([A_skip; A_value], NValue (if v then Some (VOther 3) else None));
      ([A_phantom], NPhantom);
      ([A_other], NBox (n_suffix (NPair (n_elem (dx_e v 4)) NUnit) (dx_e v 6))) ].
Lemma dx_typed v y bit w : typed v (dx v y bit w).
Proof.
  assert (He : forall x, ev F97 F97 (dx_e v x) <> None <-> v = true) by (intros x; destruct v; cbn; split; intros H; try discriminate; auto).
  assert (Hb : forall x b, bv F97 (dx_b v x b) <> None <-> v = true) by (intros x b; destruct v; cbn; split; intros H; try discriminate; auto).
  apply typed_struct. split; [exact I|].
  constructor; [split; [decl|apply typed_point; first [apply He|apply Hb]]|].
  constructor; [split; [decl|split; [apply typed_bool; first [apply He|apply Hb]|split; [apply typed_bool; first [apply He|apply Hb]|exact I]]]|].
  constructor; [split; [decl|split; [reflexivity|split; [apply typed_elem; first [apply He|apply Hb]|split; [apply typed_elem; first [apply He|apply Hb]|exact I]]]]|].
  constructor; [decl|].
  constructor; [split; [decl|destruct v; split; intros H; try discriminate; try reflexivity; now elim H]|].
  constructor; [decl|].
  constructor; [split; [decl|]|constructor]. apply typed_suffix; [|apply He]. split; [apply typed_elem; first [apply He|apply Hb]|exact I].
Qed.
Lemma dx_undemoted v y bit w : undemoted (dx v y bit w).
Proof. cbn. tauto. Qed.
Lemma dx_plain v y bit w : plain (dx v y bit w).
Proof. cbn. tauto. Qed.
Lemma v97_inj a b : v97 a = v97 b -> a = b.
Proof. apply gf_ext. Qed.

(** nine wires; a map failing on its sixth call leaves a state of six *)
Example C60_map_ex :
  num_wires (dx true 43 0 9) = Some 9 /\
  match map_gadget (fun n (w : F97) => (S n, if Nat.eqb n 5 then inr tt else inl n)) false (dx true 43 0 9) 0 with Some (n, inr _) => n = 6 | _ => False end /\
  match map_gadget (fun n (w : F97) => (S n, @inl nat unit n)) true (dx true 43 0 9) 0 with
  | Some (n, inl g') => n = 9 /\ wires g' = [0; 1; 2; 3; 4; 5; 6; 7; 8] /\ length (values g') = 9
  | _ => False
  end.
Proof. vm_compute. repeat split. Qed.
Example C60_wires_ex : option_map (map v97) (emulator_wires (dx false 43 0 9)) = Some [1; 43; 1; 0; 7; 8; 9; 4; 6]%Z.
Proof. vm_compute. reflexivity. Qed.
Example C60_demote_ex : match demote (dx true 43 0 9) with Some (NDemoted h) => (length (wires h), forallb (fun v => match v with None => true | _ => false end) (values h), length (values h)) = (9, true, 9) | _ => False end.
Proof. vm_compute. reflexivity. Qed.
Example C60_equal_ex :
  wires (dx false 43 0 9) <> wires (dx false 43 0 10) /\ hollow false (dx false 43 0 9) = hollow false (dx false 43 0 10) /\
  simulate (enforce_equal F97 F97 (dx true 43 0 9) (dx true 43 0 10)) (mk_simst 0 0 0) = None /\
  match simulate (enforce_equal F97 F97 (dx true 43 0 9) (dx true 43 0 9)) (mk_simst 0 0 0) with Some (_, s) => num_constraints s = 9 | None => False end.
Proof.
  split; [intros H; apply (f_equal (map v97)) in H; vm_compute in H; discriminate|]. split; [reflexivity|].
  split; [|rewrite (proj1 (proj2 (C60_equal F97 (dx true 43 0 9) (dx true 43 0 9) true (dx_typed _ _ _ _) (dx_typed _ _ _ _) eq_refl))) by reflexivity; reflexivity].
  apply (C60_equal F97 (dx true 43 0 9) (dx true 43 0 10) true (dx_typed _ _ _ _) (dx_typed _ _ _ _) eq_refl).
  intros H; apply (f_equal (map v97)) in H; vm_compute in H; discriminate.
Qed.
(** an unsound bit or a point off the curve is caught *)
Example C60_consistent_ex :
  holds (enforce_consistent F97 F97 f1 (l97 5) (dx false 43 0 9)) tt /\
  ~ holds (enforce_consistent F97 F97 f1 (l97 5) (dx false 43 2 9)) tt /\
  ~ holds (enforce_consistent F97 F97 f1 (l97 5) (dx false 44 0 9)) tt.
Proof.
  split; [|split]; rewrite (C60_consistent F97 (l97 5) _ (dx_typed false _ _ _) (dx_undemoted _ _ _ _)); cbn [booleans points dx app].
  - split; [apply Forall_cons; [right; apply v97_inj; vm_compute; reflexivity|apply Forall_cons; [left; apply v97_inj; vm_compute; reflexivity|constructor]]|].
    apply Forall_cons; [apply v97_inj; vm_compute; reflexivity|constructor].
  - intros [H _]. inversion H as [|? ? _ H2]; subst. inversion H2 as [|? ? H3 _]; subst. destruct H3 as [H3|H3]; apply (f_equal v97) in H3; vm_compute in H3; discriminate.
  - intros [_ H]. inversion H as [|? ? H3 _]; subst. apply (f_equal v97) in H3. vm_compute in H3. discriminate.
Qed.
(** the value of the second bit is false, its wire must be 0 *)
Example C60_consistent_run_ex :
  simulate (enforce_consistent F97 F97 f1 (l97 5) (dx true 43 0 9)) (mk_simst 0 0 0) <> None /\
  simulate (enforce_consistent F97 F97 f1 (l97 5) (dx true 43 1 9)) (mk_simst 0 0 0) = None.
Proof. split; vm_compute; [discriminate|reflexivity]. Qed.
Example C60_write_ex :
  match write_gadget vec_write (dx true 43 0 9) [] with GRet es => map (fun e => v97 (ew _ _ e)) es = [1; 43; 1; 0; 4; 6]%Z | _ => False end /\
  typed true (dx true 43 0 9) /\ plain (dx true 43 0 9).
Proof. split; [vm_compute; reflexivity|]. split; [apply dx_typed|apply dx_plain]. Qed.
Example C60_routine_ex :
  match t_xz 2 (l97 3) (l97 5) with Some t => v97 t <> 0%Z | None => False end /\ l97 3 <> f0 /\ l97 5 <> f0.
Proof. split; [vm_compute; discriminate|]. split; intros H; apply (f_equal v97) in H; vm_compute in H; discriminate. Qed.
