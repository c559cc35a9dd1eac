(** Consequences for the concrete wire maps; equality, consistency, writing. *)
From Coq Require Import List Arith NArith Bool Lia Ring Field.
From Verif Require Import FieldDef ArithModel ArithSpec GadgetModel GadgetSpec GadgetProofs PointSpec PointProofs RecModel EmuModel
  DeriveModel DeriveSpec DeriveProofs.
Import ListNotations.
Local Open Scope nat_scope.

Lemma hollow_novalues {F : Field} {X : Type} (h : node F X) : typed false h -> hollow true h = hollow false h.
Proof.
  induction h as [w|v| | |l IH|a b I1 I2|g IH|n l IH|i fs IH|g IH] using node_ind2; intros T; try reflexivity; try contradiction.
  - apply typed_array in T. rewrite !hollow_array. f_equal. apply map_ext_in. rewrite Forall_forall in *. auto.
  - destruct T. cbn [hollow]. now rewrite I1, I2.
  - cbn [hollow]. now rewrite IH.
  - apply typed_vec in T. destruct T as [_ T]. rewrite !hollow_vec. f_equal. apply map_ext_in. rewrite Forall_forall in *. auto.
  - apply typed_struct in T. destruct T as [_ T]. rewrite !hollow_struct. f_equal. apply map_ext_in. rewrite Forall_forall in *. intros [a x] I. cbn [fst snd].
    assert (hollow true x = hollow false x) as ->; [|reflexivity]. specialize (IH _ I). specialize (T _ I). unfold tfield in T. cbn [snd] in IH.
    destruct x as [| v | | | | | | | |]; try reflexivity; try (apply IH; exact (proj2 T)).
    cbn [hollow]. destruct v; [|reflexivity]. destruct T as [_ [T _]]. discriminate T. discriminate.
  - cbn [hollow]. rewrite IH; auto.
Qed.

(** types with values agree without them, across wire types *)
Lemma wires_hollow {F : Field} {X : Type} keep (g : node F X) : wires (hollow keep g) = map (fun _ => tt) (wires g).
Proof.
  induction g as [w|v| | |l IH|a b I1 I2|g IH|n l IH|i fs IH|g IH] using node_ind2; try reflexivity.
  - rewrite hollow_array, !wires_array, concat_map, !map_map. f_equal. apply map_ext_in. now apply Forall_forall.
  - cbn [hollow wires]. now rewrite I1, I2, map_app.
  - exact IH.
  - rewrite hollow_vec, !wires_vec, concat_map, !map_map. f_equal. apply map_ext_in. now apply Forall_forall.
  - rewrite hollow_struct, !wires_struct, concat_map, !map_map. f_equal. apply map_ext_in. cbn [snd]. now apply Forall_forall.
  - exact IH.
Qed.
Lemma hollow_drop' {F : Field} {X Y : Type} (a : node F X) : forall b : node F Y, hollow true a = hollow true b -> hollow false a = hollow false b.
Proof.
  induction a as [w|v| | |l IH|a1 a2 I1 I2|g IH|n l IH|i fs IH|g IH] using node_ind2; intros [w'|v'| | |l'|b1 b2|g'|n' l'|i' fs'|g'] H;
    rewrite ?hollow_array, ?hollow_vec, ?hollow_struct in *; try discriminate; try reflexivity.
  - injection H as H. f_equal. revert l' H. induction IH as [|x r Hx _ I]; intros [|y s] H; try discriminate; [reflexivity|].
    injection H as H1 H2. cbn [map]. f_equal; [now apply Hx|now apply I].
  - injection H as H1 H2. cbn [hollow]. f_equal; auto.
  - injection H as H. cbn [hollow]. f_equal. now apply IH.
  - injection H as -> H. f_equal. revert l' H. induction IH as [|x r Hx _ I]; intros [|y s] H; try discriminate; [reflexivity|].
    injection H as H1 H2. cbn [map]. f_equal; [now apply Hx|now apply I].
  - injection H as -> H. f_equal. revert fs' H. induction IH as [|[a x] r Hx _ I]; intros [|[b y] s] H; try discriminate; [reflexivity|].
    injection H as -> H1 H2. cbn [map fst snd]. f_equal; [f_equal; now apply Hx|now apply I].
  - injection H as H. cbn [hollow]. f_equal. now apply IH.
Qed.

(** ** the concrete wire maps *)
Section Maps.
  Context {F : Field} {W : Type}.
  Definition pure {X Y : Type} (f : X -> Y) (s : unit) (w : X) : unit * (Y + unit) := (s, inl (f w)).
  Lemma visit_pure {X Y : Type} (f : X -> Y) ws : visit (pure f) tt ws = (tt, inl (map f ws)).
  Proof. induction ws as [|w r IH]; [reflexivity|]. cbn [visit pure map]. now rewrite IH. Qed.
  Lemma visit_count {X : Type} (ws : list X) : forall n, exists us, visit wire_counter n ws = (n + length ws, inl us).
  Proof.
    induction ws as [|w r IH]; intros n; [exists []; cbn; now rewrite Nat.add_0_r|]. cbn [visit wire_counter length]. destruct (IH (S n)) as (us & ->).
    eexists. f_equal. lia.
  Qed.
  Lemma visit_extract {X : Type} (ws : list X) : forall l, exists us, visit wire_extractor l ws = (l ++ ws, inl us).
  Proof.
    induction ws as [|w r IH]; intros l; [exists []; cbn; now rewrite app_nil_r|]. cbn [visit wire_extractor]. destruct (IH (l ++ [w])) as (us & ->).
    rewrite <- app_assoc. eexists. reflexivity.
  Qed.
  Lemma remap_pure {Y : Type} (f : W -> Y) wit dw (g : node F W) : typed wit g -> (dw = true -> wit = true) ->
    exists g', remap (pure f) dw g = Some g' /\ typed dw g' /\ wires g' = map f (wires g) /\ hollow dw g' = hollow dw g.
  Proof.
    intros T D. pose proof (map_ok (pure f) g wit dw T D tt) as H. unfold outcome in H. rewrite visit_pure in H. destruct H as (g' & E & I).
    exists g'. unfold remap. rewrite E. auto.
  Qed.
  Lemma num_wires_ok wit (g : node F W) : typed wit g -> num_wires g = Some (length (wires g)).
  Proof.
    intros T. pose proof (map_ok (@wire_counter W) g wit false T ltac:(discriminate) 0) as H. unfold outcome in H.
    destruct (visit_count (wires g) 0) as (us & E). rewrite E in H. destruct H as (g' & E' & _). unfold num_wires. now rewrite E'.
  Qed.
  Lemma emulator_wires_ok wit (g : node F W) : typed wit g -> emulator_wires g = Some (wires g).
  Proof.
    intros T. pose proof (map_ok (@wire_extractor W) g wit false T ltac:(discriminate) []) as H. unfold outcome in H.
    destruct (visit_extract (wires g) []) as (us & E). rewrite E in H. destruct H as (g' & E' & _). unfold emulator_wires. now rewrite E'.
  Qed.
  Lemma remap_clone wit (g : node F W) : typed wit g -> remap clone_wires wit g = Some g.
  Proof.
    intros T. destruct (remap_pure (fun w => w) wit wit g T (fun x => x)) as (g' & E & T' & W' & H).
    change (remap clone_wires wit g) with (remap (pure (fun w : W => w)) wit g). rewrite E. f_equal. apply hollow_inj.
    - destruct wit; [assumption|]. now rewrite (hollow_novalues g'), (hollow_novalues g) by assumption.
    - now rewrite W', map_id.
  Qed.
  Lemma clone_ok : forall (g : node F W) wit, typed wit g -> clone wit g = Some g.
  Proof.
    intros g. induction g as [w|v| | |l IH|a b I1 I2|g IH|n l IH|i fs IH|g IH] using node_ind2; intros wit T; try contradiction; cbn [clone].
    - reflexivity.
    - apply typed_array in T. assert (clone_items (clone wit) l = Some l) as ->; [|reflexivity].
      induction IH as [|x r Hx _ I]; [reflexivity|]. inversion T; subst. cbn [clone_items]. now rewrite Hx, I by assumption.
    - destruct T. now rewrite I1, I2 by assumption.
    - now rewrite IH by assumption.
    - apply typed_vec in T. destruct T as [L T]. rewrite (proj2 (Nat.eqb_eq _ _) L). assert (clone_items (clone wit) l = Some l) as ->; [|reflexivity].
      clear L. induction IH as [|x r Hx _ I]; [reflexivity|]. inversion T; subst. cbn [clone_items]. now rewrite Hx, I by assumption.
    - apply typed_struct in T. destruct T as [_ T]. assert (clone_fields (clone wit) wit fs = Some fs) as ->; [|reflexivity].
      induction IH as [|[a x] r Hx _ I]; [reflexivity|]. inversion T as [|? ? T1 T2]; subst. cbn [clone_fields]. rewrite (I T2). cbn [snd] in Hx.
      assert (G1 : declared a T_gadget /\ typed wit x -> match classify a with Some T_gadget => clone wit x | _ => None end = Some x).
      { intros [D Tx]. apply classify_ok in D. rewrite D. auto. }
      unfold tfield in T1. destruct x as [w|v| | |l|b1 b2|g|n l|j gs|g]; try (apply G1 in T1; destruct (classify a) as [[| | |]|]; try discriminate T1; first [rewrite T1; reflexivity|reflexivity]).
      + apply classify_ok in T1. now rewrite T1.
      + destruct T1 as [T1 Tv]. apply classify_ok in T1. rewrite T1. unfold map_value. destruct wit.
        * destruct v as [v|]; [reflexivity|]. exfalso. now apply Tv.
        * destruct v as [v|]; [|reflexivity]. destruct Tv as [Tv _]. discriminate Tv. discriminate.
      + apply classify_ok in T1. now rewrite T1.
    - now rewrite IH by assumption.
  Qed.
  Lemma demote_ok wit (g : node F W) : typed wit g ->
    exists h, demote g = Some (NDemoted h) /\ typed false h /\ wires h = wires g /\ hollow false h = hollow false g.
  Proof.
    intros T. destruct (remap_pure (fun w => w) wit false g T ltac:(discriminate)) as (g' & E & T' & W' & H). rewrite map_id in W'.
    exists g'. unfold demote. change (remap clone_wires false g) with (remap (pure (fun w : W => w)) false g). rewrite E. auto.
  Qed.
End Maps.

(** mapping a demoted gadget is demoting the mapped one *)
Lemma demote_map {F : Field} {St E W W' : Type} (cv : St -> W -> St * (W' + E)) wit dw (g d : node F W) s :
  typed wit g -> (dw = true -> wit = true) -> demote g = Some d ->
  match map_gadget cv dw g s with
  | Some (s', inl g') => exists d', map_gadget cv dw d s = Some (s', inl d') /\ demote g' = Some d'
  | Some (s', inr e) => map_gadget cv dw d s = Some (s', inr e)
  | None => False
  end.
Proof.
  intros T D Ed. destruct (demote_ok wit g T) as (h & Eh & Th & Wh & Hh). rewrite Eh in Ed. injection Ed as <-.
  pose proof (map_ok cv g wit dw T D s) as H1. pose proof (map_ok cv (NDemoted h) false dw Th) as H2'.
  assert (H2 : outcome cv (map_gadget cv false h s) s (wires h) (image false h)) by (apply (map_ok cv h false false); auto).
  clear H2'. unfold outcome in *. rewrite Wh in H2. cbn [map_gadget].
  destruct (visit cv s (wires g)) as [s' [ws|e]].
  - destruct H1 as (g' & -> & T1 & W1 & K1). destruct H2 as (h' & -> & T2 & W2 & K2). cbn [rbind].
    eexists. split; [reflexivity|]. destruct (demote_ok dw g' T1) as (h2 & -> & T3 & W3 & K3). f_equal. f_equal.
    apply hollow_inj; [|congruence]. rewrite !hollow_novalues by assumption. rewrite K3, K2, Hh.
    destruct dw; [now apply hollow_drop'|assumption].
  - rewrite H1, H2. reflexivity.
Qed.
