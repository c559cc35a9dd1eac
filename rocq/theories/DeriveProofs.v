(** Wire maps over gadgets visit every wire once, in declaration order. *)
From Coq Require Import List Arith NArith Bool Lia.
From Verif Require Import FieldDef GadgetModel GadgetSpec RecModel DeriveModel DeriveSpec.
Import ListNotations.
Local Open Scope nat_scope.

Section NodeInd.
  Variables (F : Field) (W : Type) (P : node F W -> Prop).
  Hypotheses (HW : forall w, P (NWire w)) (HV : forall v, P (NValue v)) (HP : P NPhantom) (HU : P NUnit)
             (HA : forall l, Forall P l -> P (NArray l)) (HPr : forall a b, P a -> P b -> P (NPair a b))
             (HB : forall g, P g -> P (NBox g)) (HVc : forall n l, Forall P l -> P (NVec n l))
             (HS : forall i fs, Forall (fun ax => P (snd ax)) fs -> P (NStruct i fs)) (HD : forall g, P g -> P (NDemoted g)).
  Fixpoint node_ind2 (g : node F W) : P g :=
    match g with
    | NWire w => HW w | NValue v => HV v | NPhantom => HP | NUnit => HU
    | NArray l => HA l ((fix go l : Forall P l := match l with [] => Forall_nil _ | x :: r => Forall_cons x (node_ind2 x) (go r) end) l)
    | NPair a b => HPr a b (node_ind2 a) (node_ind2 b)
    | NBox g => HB g (node_ind2 g)
    | NVec n l => HVc n l ((fix go l : Forall P l := match l with [] => Forall_nil _ | x :: r => Forall_cons x (node_ind2 x) (go r) end) l)
    | NStruct i fs => HS i fs ((fix go l : Forall (fun ax => P (snd ax)) l :=
        match l with [] => Forall_nil _ | x :: r => Forall_cons x (node_ind2 (snd x)) (go r) end) fs)
    | NDemoted g => HD g (node_ind2 g)
    end.
End NodeInd.

(** ** classification of fields *)
Lemma has_in a l : has a l = true <-> In a l.
Proof.
  unfold has. rewrite existsb_exists. split.
  - intros (x & I & E). destruct a, x; try discriminate; assumption.
  - intros I. exists a. split; [assumption|]. now destruct a.
Qed.
Lemma has_not a l : has a l = false <-> ~ In a l.
Proof. rewrite <- has_in. now destruct (has a l). Qed.

Lemma classify_ok a t : classify a = Some t <-> declared a t.
Proof.
  unfold declared, annotated, classify.
  pose proof (has_in A_value a) as V. pose proof (has_in A_wire a) as Wi. pose proof (has_in A_gadget a) as Ga. pose proof (has_in A_phantom a) as Ph.
  split.
  - destruct (has A_value a), (has A_wire a), (has A_gadget a), (has A_phantom a); intros E; try discriminate; injection E as <-;
      try (left; split; [intuition congruence|]); try (split; [intuition congruence|]); try right;
      intros u Iu; cbn in Iu; decompose [or] Iu; subst; intuition congruence.
  - intros D. assert (X : forall u v, In u a -> In u [A_value; A_wire; A_gadget; A_phantom] -> In v a -> In v [A_value; A_wire; A_gadget; A_phantom] -> u = v).
    { intros u v Iu Ju Iv Jv. destruct t; try destruct D as [D|D]; try (destruct D as [D1 D2]; now rewrite (D2 u Ju Iu), (D2 v Jv Iv)).
      exfalso. eapply D; eauto. }
    assert (XX : forall u v, In u [A_value; A_wire; A_gadget; A_phantom] -> In v [A_value; A_wire; A_gadget; A_phantom] -> u <> v -> has u a = true -> has v a = true -> False).
    { intros u v Ju Jv N Hu Hv. apply N, X; auto; now apply has_in. }
    pose proof (XX A_value A_wire) as X1. pose proof (XX A_value A_gadget) as X2. pose proof (XX A_value A_phantom) as X3.
    pose proof (XX A_wire A_gadget) as X4. pose proof (XX A_wire A_phantom) as X5. pose proof (XX A_gadget A_phantom) as X6.
    cbn [In] in X1, X2, X3, X4, X5, X6.
    assert (Nd : forall u v : attr, u <> v \/ u = v) by (intros; destruct (attr_dec u v); auto).
    destruct t.
    + destruct D as [D _]. apply V in D. destruct (has A_value a); [|discriminate].
      destruct (has A_wire a); [exfalso; apply X1; auto; discriminate|]. destruct (has A_gadget a); [exfalso; apply X2; auto 6; discriminate|].
      destruct (has A_phantom a); [exfalso; apply X3; auto 6; discriminate|]. reflexivity.
    + destruct D as [D _]. apply Wi in D. destruct (has A_wire a); [|discriminate].
      destruct (has A_value a); [exfalso; apply X1; auto; discriminate|]. destruct (has A_gadget a); [exfalso; apply X4; auto 6; discriminate|].
      destruct (has A_phantom a); [exfalso; apply X5; auto 6; discriminate|]. reflexivity.
    + destruct D as [[D _]|D].
      * apply Ga in D. destruct (has A_gadget a); [|discriminate].
        destruct (has A_value a); [exfalso; apply X2; auto 6; discriminate|]. destruct (has A_wire a); [exfalso; apply X4; auto 6; discriminate|].
        destruct (has A_phantom a); [exfalso; apply X6; auto 6; discriminate|]. reflexivity.
      * cbn [In] in D. pose proof (D A_value) as D1. pose proof (D A_wire) as D2. pose proof (D A_gadget) as D3. pose proof (D A_phantom) as D4.
        destruct (has A_value a); [exfalso; intuition|]. destruct (has A_wire a); [exfalso; intuition|].
        destruct (has A_gadget a); [exfalso; intuition|]. destruct (has A_phantom a); [exfalso; intuition|]. reflexivity.
    + destruct D as [D _]. apply Ph in D. destruct (has A_phantom a); [|discriminate].
      destruct (has A_value a); [exfalso; apply X3; auto 6; discriminate|]. destruct (has A_wire a); [exfalso; apply X5; auto 6; discriminate|].
      destruct (has A_gadget a); [exfalso; apply X6; auto 6; discriminate|]. reflexivity.
Qed.
(** the [Consistent] derive enforces exactly the fields the [Gadget] derive maps
    as gadgets *)
Lemma enforce_ok a t : classify a = Some t -> (should_enforce a = true <-> t = T_gadget).
Proof.
  unfold classify, should_enforce. destruct (has A_value a), (has A_wire a), (has A_gadget a), (has A_phantom a); intros E; try discriminate;
    injection E as <-; cbn; split; intros; try discriminate; reflexivity.
Qed.

(** ** list forms of the spec's loops *)
Section Forms.
  Context {F : Field} {W : Type}.
  Local Notation node := (node F W).
  Definition tfield (wit : bool) (ax : list attr * node) : Prop :=
    let '(a, x) := ax in
    match x with
    | NWire _ => declared a T_wire
    | NValue v => declared a T_value /\ (v <> None <-> wit = true)
    | NPhantom => declared a T_phantom
    | x => declared a T_gadget /\ typed wit x
    end.
  Lemma typed_all wit (l : list node) :
    (fix all l := match l with [] => True | x :: r => typed wit x /\ all r end) l <-> Forall (typed wit) l.
  Proof. induction l as [|x r IH]; [split; auto|]. rewrite IH. split; [intros []; auto|]. intros H. inversion H; auto. Qed.
  Lemma typed_fields wit fs :
    (fix all (l : list (list attr * node)) : Prop :=
           match l with
           | [] => True
           | (a, x) :: r =>
               match x with
               | NWire _ => declared a T_wire
               | NValue v => declared a T_value /\ (v <> None <-> wit = true)
               | NPhantom => declared a T_phantom
               | x => declared a T_gadget /\ typed wit x
               end /\ all r
           end) fs <-> Forall (tfield wit) fs.
  Proof. induction fs as [|[a x] r IH]; [split; auto|]. rewrite IH. split; [intros []; constructor; auto|]. intros H. inversion H; subst; auto. Qed.
  Lemma typed_array wit (l : list node) : typed wit (NArray l) <-> Forall (typed wit) l.
  Proof. apply typed_all. Qed.
  Lemma typed_vec wit n (l : list node) : typed wit (NVec n l) <-> length l = n /\ Forall (typed wit) l.
  Proof. cbn [typed]. now rewrite typed_all. Qed.
  Lemma typed_struct wit i (fs : list (list attr * node)) : typed wit (NStruct i fs) <-> fits i fs /\ Forall (tfield wit) fs.
  Proof. cbn [typed]. now rewrite typed_fields. Qed.

  Lemma concat_fix {A : Type} (f : node -> list A) l :
    (fix go l := match l with [] => [] | x :: r => f x ++ go r end) l = concat (map f l).
  Proof. induction l as [|x r IH]; [reflexivity|]. now rewrite IH. Qed.
  Lemma concat_fix2 {A : Type} (f : node -> list A) (l : list (list attr * node)) :
    (fix go (l : list (list attr * node)) := match l with [] => [] | (_, x) :: r => f x ++ go r end) l = concat (map (fun ax => f (snd ax)) l).
  Proof. induction l as [|[a x] r IH]; [reflexivity|]. now rewrite IH. Qed.
  Lemma map_fix {A : Type} (f : node -> A) l :
    (fix go l := match l with [] => [] | x :: r => f x :: go r end) l = map f l.
  Proof. induction l as [|x r IH]; [reflexivity|]. now rewrite IH. Qed.
  Lemma map_fix2 {A : Type} (f : node -> A) (l : list (list attr * node)) :
    (fix go (l : list (list attr * node)) := match l with [] => [] | (a, x) :: r => (a, f x) :: go r end) l = map (fun ax => (fst ax, f (snd ax))) l.
  Proof. induction l as [|[a x] r IH]; [reflexivity|]. now rewrite IH. Qed.
  Lemma wires_array l : wires (NArray l : node) = concat (map wires l). Proof. apply concat_fix. Qed.
  Lemma wires_vec n l : wires (NVec n l : node) = concat (map wires l). Proof. apply concat_fix. Qed.
  Lemma wires_struct i fs : wires (NStruct i fs : node) = concat (map (fun ax => wires (snd ax)) fs). Proof. apply concat_fix2. Qed.
  Lemma values_array l : values (NArray l : node) = concat (map values l). Proof. apply concat_fix. Qed.
  Lemma values_vec n l : values (NVec n l : node) = concat (map values l). Proof. apply concat_fix. Qed.
  Lemma values_struct i fs : values (NStruct i fs : node) = concat (map (fun ax => values (snd ax)) fs). Proof. apply concat_fix2. Qed.
  Lemma hollow_array k l : hollow k (NArray l : node) = NArray (map (hollow k) l). Proof. cbn [hollow]. now rewrite map_fix. Qed.
  Lemma hollow_vec k n l : hollow k (NVec n l : node) = NVec n (map (hollow k) l). Proof. cbn [hollow]. now rewrite map_fix. Qed.
  Lemma hollow_struct k i fs : hollow k (NStruct i fs : node) = NStruct i (map (fun ax => (fst ax, hollow k (snd ax))) fs).
  Proof. cbn [hollow]. now rewrite map_fix2. Qed.
End Forms.

(** a gadget is its hollow form together with its wires *)
Section Inj.
  Context {F : Field} {W : Type}.
  Local Notation node := (node F W).
  Lemma hollow_len (a : node) : forall b : node, hollow false a = hollow false b -> length (wires a) = length (wires b).
  Proof.
    induction a as [w|v| | |l IH|a1 a2 I1 I2|g IH|n l IH|i fs IH|g IH] using node_ind2; intros [w'|v'| | |l'|b1 b2|g'|n' l'|i' fs'|g'] H;
      rewrite ?hollow_array, ?hollow_vec, ?hollow_struct in H; try discriminate; try reflexivity.
    - injection H as H. rewrite !wires_array. revert l' H. induction IH as [|x r Hx _ I]; intros [|y s] H; try discriminate; [reflexivity|].
      injection H as H1 H2. cbn [map concat]. rewrite !app_length. f_equal; [now apply Hx|now apply I].
    - injection H as H1 H2. cbn [wires]. rewrite !app_length. auto.
    - injection H as H. cbn [wires values]. now apply IH.
    - injection H as _ H. rewrite !wires_vec. revert l' H. induction IH as [|x r Hx _ I]; intros [|y s] H; try discriminate; [reflexivity|].
      injection H as H1 H2. cbn [map concat]. rewrite !app_length. f_equal; [now apply Hx|now apply I].
    - injection H as _ H. rewrite !wires_struct. revert fs' H. induction IH as [|x r Hx _ I]; intros [|y s] H; try discriminate; [reflexivity|].
      injection H as _ H1 H2. cbn [map concat]. rewrite !app_length. f_equal; [now apply Hx|now apply I].
    - injection H as H. cbn [wires values]. now apply IH.
  Qed.
  Lemma hollow_drop (a : node) : forall b : node, hollow true a = hollow true b -> hollow false a = hollow false b.
  Proof.
    induction a as [w|v| | |l IH|a1 a2 I1 I2|g IH|n l IH|i fs IH|g IH] using node_ind2; intros [w'|v'| | |l'|b1 b2|g'|n' l'|i' fs'|g'] H;
      rewrite ?hollow_array, ?hollow_vec, ?hollow_struct in *; try discriminate; try reflexivity.
    - injection H as H. f_equal. revert l' H. induction IH as [|x r Hx _ I]; intros [|y s] H; try discriminate; [reflexivity|].
      injection H as H1 H2. cbn [map]. f_equal; [now apply Hx|now apply I].
    - injection H as H1 H2. cbn [hollow]. f_equal; auto.
    - injection H as H. cbn [hollow]. f_equal. now apply IH.
    - injection H as -> H. f_equal. revert l' H. induction IH as [|x r Hx _ I]; intros [|y s] H; try discriminate; [reflexivity|].
      injection H as H1 H2. cbn [map]. f_equal; [now apply Hx|now apply I].
    - injection H as -> H. f_equal. revert fs' H. induction IH as [|[a x] r Hx _ I]; intros [|[b y] s] H; try discriminate; [reflexivity|].
      injection H as -> H1 H2. cbn [map fst snd]. f_equal; [f_equal; now apply Hx|now apply I].
    - injection H as H. cbn [hollow]. f_equal. now apply IH.
  Qed.
  Lemma app_split {A : Type} (a b c d : list A) : length a = length c -> a ++ b = c ++ d -> a = c /\ b = d.
  Proof. revert c. induction a as [|x a IH]; intros [|y c] L E; try discriminate; [auto|]. injection E as -> E. destruct (IH c) as [-> ->]; auto. Qed.
  Lemma hollow_inj (a : node) : forall b : node, hollow true a = hollow true b -> wires a = wires b -> a = b.
  Proof.
    induction a as [w|v| | |l IH|a1 a2 I1 I2|g IH|n l IH|i fs IH|g IH] using node_ind2; intros [w'|v'| | |l'|b1 b2|g'|n' l'|i' fs'|g'] H E;
      rewrite ?hollow_array, ?hollow_vec, ?hollow_struct, ?wires_array, ?wires_vec, ?wires_struct in *; try discriminate; try reflexivity.
    - cbn in E. congruence.
    - cbn in H. congruence.
    - injection H as H. f_equal. revert l' H E. induction IH as [|x r Hx _ I]; intros [|y s] H E; try discriminate; [reflexivity|].
      injection H as H1 H2. cbn [map concat] in E. apply app_split in E; [|apply hollow_len, hollow_drop, H1]. destruct E as [E1 E2].
      f_equal; [now apply Hx|now apply I].
    - injection H as H1 H2. cbn [wires] in E. apply app_split in E; [|apply hollow_len, hollow_drop, H1]. destruct E. f_equal; auto.
    - injection H as H. f_equal. cbn [wires] in E. now apply IH.
    - injection H as -> H. f_equal. revert l' H E. induction IH as [|x r Hx _ I]; intros [|y s] H E; try discriminate; [reflexivity|].
      injection H as H1 H2. cbn [map concat] in E. apply app_split in E; [|apply hollow_len, hollow_drop, H1]. destruct E as [E1 E2].
      f_equal; [now apply Hx|now apply I].
    - injection H as -> H. f_equal. revert fs' H E. induction IH as [|[a x] r Hx _ I]; intros [|[b y] s] H E; try discriminate; [reflexivity|].
      injection H as -> H1 H2. cbn [map concat snd] in E. apply app_split in E; [|apply hollow_len, hollow_drop, H1]. destruct E as [E1 E2].
      f_equal; [f_equal; now apply Hx|now apply I].
    - injection H as H. f_equal. cbn [wires] in E. now apply IH.
  Qed.
  Lemma hollow_values k (a : node) : forall b : node, hollow k a = hollow k b ->
    map (fun v => if k then v else None) (values a) = map (fun v => if k then v else None) (values b).
  Proof.
    induction a as [w|v| | |l IH|a1 a2 I1 I2|g IH|n l IH|i fs IH|g IH] using node_ind2; intros [w'|v'| | |l'|b1 b2|g'|n' l'|i' fs'|g'] H;
      rewrite ?hollow_array, ?hollow_vec, ?hollow_struct, ?values_array, ?values_vec, ?values_struct in *; try discriminate; try reflexivity.
    - cbn in *. congruence.
    - injection H as H. revert l' H. induction IH as [|x r Hx _ I]; intros [|y s] H; try discriminate; [reflexivity|].
      injection H as H1 H2. cbn [map concat]. rewrite !map_app. f_equal; [now apply Hx|now apply I].
    - injection H as H1 H2. cbn [values]. rewrite !map_app. f_equal; auto.
    - injection H as H. cbn [wires values]. now apply IH.
    - injection H as _ H. revert l' H. induction IH as [|x r Hx _ I]; intros [|y s] H; try discriminate; [reflexivity|].
      injection H as H1 H2. cbn [map concat]. rewrite !map_app. f_equal; [now apply Hx|now apply I].
    - injection H as _ H. revert fs' H. induction IH as [|x r Hx _ I]; intros [|y s] H; try discriminate; [reflexivity|].
      injection H as _ H1 H2. cbn [map concat]. rewrite !map_app. f_equal; [now apply Hx|now apply I].
    - injection H as H. cbn [wires values]. now apply IH.
  Qed.
End Inj.

(** ** [map_gadget] *)
Section MapP.
  Context {F : Field} {St E W W' : Type}.
  Variable cv : St -> W -> St * (W' + E).
  Lemma visit_app ws vs : forall s, visit cv s (ws ++ vs) =
    match visit cv s ws with
    | (s, inr e) => (s, inr e)
    | (s, inl a) => match visit cv s vs with (s, inl b) => (s, inl (a ++ b)) | (s, inr e) => (s, inr e) end
    end.
  Proof.
    induction ws as [|w r IH]; intros s; cbn [visit app].
    - destruct (visit cv s vs) as [s' [b|e]]; reflexivity.
    - destruct (cv s w) as [s1 [w'|e]]; [|reflexivity]. rewrite IH. destruct (visit cv s1 r) as [s2 [a|e]]; [|reflexivity].
      destruct (visit cv s2 vs) as [s3 [b|e]]; reflexivity.
  Qed.

  (** the outcome of mapping a list of things whose wires are [ws] *)
  Definition outcome {A : Type} (r : res St E A) (s : St) (ws : list W) (P : A -> list W' -> Prop) : Prop :=
    match visit cv s ws with
    | (s', inl ws') => exists a, r = Some (s', inl a) /\ P a ws'
    | (s', inr e) => r = Some (s', inr e)
    end.
  Lemma outcome_bind {A B : Type} (r : res St E A) (k : A -> St -> res St E B) s ws vs (P : A -> list W' -> Prop) (Q : B -> list W' -> Prop) :
    outcome r s ws P -> (forall a s' us, P a us -> outcome (k a s') s' vs (fun b xs => Q b (us ++ xs))) ->
    outcome (rbind r k) s (ws ++ vs) Q.
  Proof.
    unfold outcome. rewrite visit_app. destruct (visit cv s ws) as [s1 [us|e]].
    - intros (a & -> & Pa) K. specialize (K a s1 us Pa). cbn [rbind]. destruct (visit cv s1 vs) as [s2 [xs|e]]; assumption.
    - intros -> _. reflexivity.
  Qed.
  Lemma outcome_ret {A : Type} (a : A) s (P : A -> list W' -> Prop) : P a [] -> outcome (rret a s) s [] P.
  Proof. intros H. exists a. auto. Qed.
  Lemma outcome_map {A B : Type} (r : res St E A) (f : A -> B) s ws (P : A -> list W' -> Prop) (Q : B -> list W' -> Prop) :
    outcome r s ws P -> (forall a us, P a us -> Q (f a) us) -> outcome (rbind r (fun a s => rret (f a) s)) s ws Q.
  Proof.
    intros H K. rewrite <- (app_nil_r ws). apply outcome_bind with (P := P); [assumption|]. intros a s' us Pa. apply outcome_ret.
    rewrite app_nil_r. auto.
  Qed.

  (** what a mapped gadget is *)
  Definition image (dw : bool) (g : node F W) (g' : node F W') (ws' : list W') : Prop :=
    typed dw g' /\ wires g' = ws' /\ hollow dw g' = hollow dw g.

  Lemma items_ok dw (l : list (node F W)) :
    Forall (fun g => forall s, outcome (map_gadget cv dw g s) s (wires g) (image dw g)) l ->
    forall s, outcome (map_items (map_gadget cv dw) l s) s (concat (map wires l))
                (fun r us => Forall (typed dw) r /\ concat (map wires r) = us /\ map (hollow dw) r = map (hollow dw) l).
  Proof.
    induction 1 as [|x r Hx _ IH]; intros s; cbn [map_items map concat].
    - apply outcome_ret. cbn. auto.
    - eapply outcome_bind; [apply Hx|]. intros x' s' us (T & Wx & Hh). rewrite <- (app_nil_r (concat (map wires r))).
      eapply outcome_bind; [apply IH|]. intros r' s2 vs (T2 & W2 & H2). apply outcome_ret. rewrite app_nil_r. cbn [map concat].
      rewrite Wx, W2, Hh, H2. auto.
  Qed.
  Lemma value_like k (v : option (val F)) (v' : option (val F)) :
    (v' <> None <-> k = true) -> hollow k (NValue v' : node F W') = hollow k (NValue v : node F W) -> v' = if k then v else None.
  Proof. cbn [hollow]. intros H E1. injection E1 as E1. destruct k; [assumption|]. destruct v'; [|reflexivity]. destruct H as [H _]. discriminate H. discriminate. Qed.
  Lemma elem_fields_like k (e : elem F W) (gs : list (list attr * node F W')) :
    Forall (tfield k) gs -> hollow k (NStruct I_element gs) = hollow k (n_elem e) -> exists e', NStruct I_element gs = n_elem e'.
  Proof.
    intros T H. unfold n_elem in H. rewrite !hollow_struct in H. injection H as H. destruct e as [w v].
    destruct gs as [|[a1 x1] [|[a2 x2] [|]]]; try discriminate. cbn [map fst snd ew ev] in H. injection H as -> H1 -> H2.
    destruct x1 as [w'| | | | | | | | |]; try discriminate. destruct x2 as [|v'| | | | | | | |]; try discriminate.
    inversion T as [|? ? _ T2]; subst. inversion T2 as [|? ? T3 _]; subst. destruct T3 as [_ T3]. apply (value_like k _ _ T3) in H2.
    exists (mk_elem F W' w' (if k then v else None)). unfold n_elem. cbn [ew ev]. subst v'. destruct k; reflexivity.
  Qed.
  Lemma elem_like k (e : elem F W) (g : node F W') :
    typed k g -> hollow k g = hollow k (n_elem e) -> exists e', g = n_elem e'.
  Proof.
    intros T H. destruct g as [| | | | | | | |i gs|]; try discriminate. pose proof H as H'. unfold n_elem in H'. rewrite !hollow_struct in H'.
    injection H' as -> H'. apply typed_struct in T. destruct T as [_ T]. now apply (elem_fields_like k e).
  Qed.
  Lemma fits_hollow k i (fs : list (list attr * node F W)) (gs : list (list attr * node F W')) :
    Forall (tfield k) gs -> map (fun ax => (fst ax, hollow k (snd ax))) gs = map (fun ax => (fst ax, hollow k (snd ax))) fs ->
    fits i fs -> fits i gs.
  Proof.
    intros T H. assert (Hs : forall j, hollow k (NStruct j gs) = hollow k (NStruct j fs)) by (intros j; now rewrite !hollow_struct, H).
    destruct i; cbn [fits]; auto.
    - intros (e & E1). specialize (Hs I_element). rewrite E1 in Hs. now apply (elem_fields_like k e).
    - intros (b & E1). specialize (Hs I_boolean). destruct b as [w v]. rewrite E1 in Hs. unfold n_bool in Hs. rewrite !hollow_struct in Hs. injection Hs as Hs.
      destruct gs as [|[a1 x1] [|[a2 x2] [|]]]; try discriminate. cbn [map fst snd bw bv] in Hs. injection Hs as -> H1 -> H2.
      destruct x1 as [w'| | | | | | | | |]; try discriminate. destruct x2 as [|v'| | | | | | | |]; try discriminate.
      inversion T as [|? ? _ T2]; subst. inversion T2 as [|? ? T3 _]; subst. destruct T3 as [_ T3]. apply (value_like k _ _ T3) in H2.
      exists (mk_bool W' w' (if k then v else None)). unfold n_bool. cbn [bw bv]. subst v'. destruct k; reflexivity.
    - intros (p & E1). specialize (Hs I_point). destruct p as [x y]. rewrite E1 in Hs. unfold n_point in Hs. rewrite !hollow_struct in Hs. injection Hs as Hs.
      destruct gs as [|[a1 x1] [|[a2 x2] [|[a3 x3] [|]]]]; try discriminate. cbn [map fst snd px py] in Hs. injection Hs as -> H1 -> H2 -> H3.
      inversion T as [|? ? T1 T2]; subst. inversion T2 as [|? ? T3 T4]; subst.
      assert (K : forall (e : elem F W) (z : node F W'), tfield k ([A_gadget], z) -> hollow k z = hollow k (n_elem e) -> exists e', z = n_elem e').
      { intros e z Tz Hz. destruct z; try discriminate. apply (elem_like k e); [exact (proj2 Tz)|assumption]. }
      destruct (K _ _ T1 H1) as [x' ->]. destruct (K _ _ T3 H2) as [y' ->]. destruct x3; try discriminate. exists (mk_point F W' x' y'). reflexivity.
    - intros (g & e & E1). specialize (Hs I_suffix). rewrite E1 in Hs. unfold n_suffix in Hs. rewrite !hollow_struct in Hs. injection Hs as Hs.
      destruct gs as [|[a1 x1] [|[a2 x2] [|]]]; try discriminate. cbn [map fst snd] in Hs. injection Hs as -> H1 -> H2.
      inversion T as [|? ? T1 T2]; subst. inversion T2 as [|? ? T3 T4]; subst.
      assert (exists e', x2 = n_elem e') as [e' ->]. { destruct x2; try discriminate. apply (elem_like k e); [exact (proj2 T3)|assumption]. }
      exists x1, e'. reflexivity.
  Qed.

  Lemma fields_ok wit dw (l : list (list attr * node F W)) : (dw = true -> wit = true) ->
    Forall (fun ax => typed wit (snd ax) -> forall s, outcome (map_gadget cv dw (snd ax) s) s (wires (snd ax)) (image dw (snd ax))) l ->
    Forall (tfield wit) l ->
    forall s, outcome (map_fields cv (map_gadget cv dw) dw l s) s (concat (map (fun ax => wires (snd ax)) l))
                (fun r us => Forall (tfield dw) r /\ concat (map (fun ax => wires (snd ax)) r) = us /\
                   map (fun ax => (fst ax, hollow dw (snd ax))) r = map (fun ax => (fst ax, hollow dw (snd ax))) l).
  Proof.
    intros D H T. induction H as [|[a x] r Hx _ IH]; intros s; cbn [map_fields map concat snd fst].
    - apply outcome_ret. cbn. auto.
    - inversion T as [|? ? Tx Tr]; subst. specialize (IH Tr). cbn [snd] in Hx.
      eapply outcome_bind with (P := fun x' us => tfield dw (a, x') /\ wires x' = us /\ hollow dw x' = hollow dw x).
      + assert (Hg : declared a T_gadget /\ typed wit x -> outcome match classify a with Some T_gadget => map_gadget cv dw x s | _ => None end s (wires x)
                       (fun x' us => tfield dw (a, x') /\ wires x' = us /\ hollow dw x' = hollow dw x)).
        { intros [Dg Tg]. apply classify_ok in Dg. rewrite Dg. specialize (Hx Tg s). unfold outcome in *. destruct (visit cv s (wires x)) as [s' [us|e]]; [|assumption].
          destruct Hx as (x' & -> & Ty & Wx & Hh). exists x'. split; [reflexivity|]. split; [|auto].
          unfold tfield. apply classify_ok in Dg. destruct x'; cbn in Ty; try contradiction; auto. }
        unfold tfield in Tx. destruct x as [w|v| | |l|b1 b2|g|n l|i fs|g];
          try (apply Hg in Tx; destruct (classify a) as [[| | |]|]; exact Tx).
        * pose proof Tx as Tx'. apply classify_ok in Tx. rewrite Tx. unfold outcome. cbn [wires visit]. destruct (cv s w) as [s' [w'|e]]; [|reflexivity].
          exists (NWire w'). cbn [tfield wires hollow]. auto.
        * destruct Tx as [Tx Tv]. pose proof Tx as Tx'. apply classify_ok in Tx. rewrite Tx. unfold outcome. cbn [wires visit].
          assert (exists v', map_value dw v = Some v' /\ (v' <> None <-> dw = true) /\ hollow dw (NValue v' : node F W') = hollow dw (NValue v : node F W)) as (v' & -> & Hv & Hh).
          { unfold map_value. destruct dw.
            - destruct v as [v|]; [exists (Some v); repeat split; auto; discriminate|]. destruct Tv as [_ Tv]. exfalso. apply Tv; auto.
            - exists None. repeat split; try discriminate. intros H. now elim H. }
          exists (NValue v'). cbn [tfield wires]. auto.
        * pose proof Tx as Tx'. apply classify_ok in Tx. rewrite Tx. apply outcome_ret. cbn [tfield wires hollow]. auto.
      + intros x' s' us (Tf & Wx & Hh). rewrite <- (app_nil_r (concat (map _ r))). eapply outcome_bind; [apply IH|].
        intros r' s2 vs (T2 & W2 & H2). apply outcome_ret. rewrite app_nil_r. cbn [map concat snd fst]. rewrite Wx, W2, Hh, H2. auto.
  Qed.

  Lemma map_ok : forall (g : node F W) wit dw, typed wit g -> (dw = true -> wit = true) ->
    forall s, outcome (map_gadget cv dw g s) s (wires g) (image dw g).
  Proof.
    assert (items : forall wit dw l, (dw = true -> wit = true) ->
      Forall (fun g => forall wit dw, typed wit g -> (dw = true -> wit = true) -> forall s, outcome (map_gadget cv dw g s) s (wires g) (image dw g)) l ->
      Forall (typed wit) l -> Forall (fun g : node F W => forall s, outcome (map_gadget cv dw g s) s (wires g) (image dw g)) l).
    { intros wit dw l D H T. rewrite Forall_forall in *. intros x Ix s. eapply H; eauto. }
    intros g. induction g as [w|v| | |l IH|a b I1 I2|g IH|n l IH|i fs IH|g IH] using node_ind2; intros wit dw T D s; try contradiction; cbn [map_gadget].
    - apply outcome_ret. repeat split.
    - apply typed_array in T. rewrite wires_array. eapply outcome_map; [apply items_ok; eapply items; eauto|].
      intros r us (T2 & W2 & H2). split; [now apply typed_array|split; [now rewrite wires_array|now rewrite !hollow_array, H2]].
    - destruct T as [T1 T2]. cbn [wires]. eapply outcome_bind; [eapply I1; eauto|]. intros a' s' us (Ta & Wa & Ha). rewrite <- (app_nil_r (wires b)).
      eapply outcome_bind; [eapply I2; eauto|]. intros b' s2 vs (Tb & Wb & Hb). apply outcome_ret. rewrite app_nil_r. repeat split; auto.
      + cbn [wires]. now rewrite Wa, Wb. + cbn [hollow]. now rewrite Ha, Hb.
    - cbn [wires]. eapply outcome_map; [eapply IH; eauto|]. intros g' us (T2 & W2 & H2). repeat split; auto. cbn [hollow]. now rewrite H2.
    - apply typed_vec in T. destruct T as [L T]. rewrite wires_vec. rewrite (proj2 (Nat.eqb_eq _ _) L).
      pose proof (items_ok dw l (items wit dw l D IH T) s) as H. unfold outcome in *.
      destruct (visit cv s (concat (map wires l))) as [s' [us|e]]; [|now rewrite H]. destruct H as (r & -> & T2 & W2 & H2). cbn [rbind].
      assert (Lr : length r = n) by (rewrite <- L, <- (map_length (hollow dw) r), H2; apply map_length). rewrite (proj2 (Nat.eqb_eq _ _) Lr).
      eexists. split; [reflexivity|]. split; [now apply typed_vec|split; [now rewrite wires_vec|now rewrite !hollow_vec, H2]].
    - apply typed_struct in T. destruct T as [Ft T]. rewrite wires_struct. eapply outcome_map.
      { apply (fields_ok wit); [assumption| |assumption]. rewrite Forall_forall in *. intros x Ix Tx s'. eapply IH; eauto. }
      intros r us (T2 & W2 & H2). split; [|split; [now rewrite wires_struct|now rewrite !hollow_struct, H2]].
      apply typed_struct. split; [|assumption]. eapply fits_hollow; eauto.
    - cbn [wires]. cbn [typed] in T. assert (D0 : false = true -> false = true) by discriminate. eapply outcome_map; [eapply IH; eauto|].
      intros g' us (T2 & W2 & H2). repeat split; auto. cbn [hollow]. f_equal. destruct dw; [|assumption].
      (* without values keeping them or not is the same *)
      assert (K : forall (X : Type) (h : node F X), typed false h -> hollow true h = hollow false h).
      { clear. intros X h. induction h as [w|v| | |l IH|a b I1 I2|g IH|n l IH|i fs IH|g IH] using node_ind2; intros T; try reflexivity; try contradiction.
        - apply typed_array in T. rewrite !hollow_array. f_equal. apply map_ext_in. rewrite Forall_forall in *. auto.
        - destruct T. cbn [hollow]. now rewrite I1, I2.
        - cbn [hollow]. now rewrite IH.
        - apply typed_vec in T. destruct T as [_ T]. rewrite !hollow_vec. f_equal. apply map_ext_in. rewrite Forall_forall in *. auto.
        - apply typed_struct in T. destruct T as [_ T]. rewrite !hollow_struct. f_equal. apply map_ext_in. rewrite Forall_forall in *. intros [a x] I. cbn [fst snd].
          assert (hollow true x = hollow false x) as ->; [|reflexivity]. specialize (IH _ I). specialize (T _ I). unfold tfield in T. cbn [snd] in IH. destruct x as [| v | | | | | | | |]; try reflexivity; try (apply IH; exact (proj2 T)).
          cbn [hollow]. destruct v; [|reflexivity]. destruct T as [_ [T _]]. discriminate T. discriminate.
        - cbn [hollow]. rewrite IH; auto. }
      rewrite !K; auto.
  Qed.
End MapP.
