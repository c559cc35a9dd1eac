(** Equality, consistency and serialization of gadgets; routine prediction. *)
From Coq Require Import List Arith NArith Bool Lia Ring Field.
From Verif Require Import FieldDef ArithModel ArithSpec TModel TProofs GadgetModel GadgetSpec GadgetProofs PointSpec PointProofs RecModel EmuModel ParSpec ParProofs EmuProofs TxzProofs
  DeriveModel DeriveSpec DeriveProofs.
Import ListNotations.
Local Open Scope nat_scope.

Section Enforce.
  Variable F : Field.
  Add Field FFu17 : (f_theory F).
  Open Scope f_scope.
  Local Notation node := (node F F).

  (** [p] enforces [C] and nothing else, with [n] linear constraints *)
  Definition enforces (p : G F F unit) (C : Prop) (n : nat) : Prop :=
    (forall r, holds p r <-> C /\ r = tt) /\
    (forall s, C -> simulate p s = Some (tt, bump s 0 0 n)) /\
    (forall s x, simulate p s = Some x -> C).
  Lemma enforces_ret : enforces (GRet tt) True 0.
  Proof.
    split; [|split]; [|intros s _; cbn; unfold bump; destruct s; cbn; now rewrite !Nat.add_0_r|auto].
    intros []. cbn. tauto.
  Qed.
  Lemma enforces_equal (a b : F) : enforces (g_equal F F a b) (a = b) 1.
  Proof.
    split; [|split]; [intros r; apply equal_w|intros s H; now apply equal_s|]. intros s x H. destruct (feqb a b) eqn:E; [now apply feqb_true|].
    apply (feqb_false F) in E. rewrite equal_s_bad in H by assumption. discriminate.
  Qed.
  Lemma enforces_bind (p q : G F F unit) C D n m : enforces p C n -> enforces q D m -> enforces (gbind p (fun _ => q)) (C /\ D) (n + m)%nat.
  Proof.
    intros (P1 & P2 & P3) (Q1 & Q2 & Q3). split; [|split].
    - intros r. rewrite holds_bind. split.
      + intros (x & H1 & H2). apply P1 in H1. apply Q1 in H2. tauto.
      + intros [[HC HD] ->]. exists tt. split; [now apply P1|now apply Q1].
    - intros s [HC HD]. rewrite sim_bind, P2, Q2 by assumption. now rewrite bump_bump.
    - intros s x H. rewrite sim_bind in H. destruct (simulate p s) as [[u s']|] eqn:E; [|discriminate]. split; [eapply P3; eauto|eapply Q3; eauto].
  Qed.
  Lemma enforces_iff p C D n m : enforces p C n -> (C <-> D) -> n = m -> enforces p D m.
  Proof. intros (P1 & P2 & P3) H <-. split; [|split]; [intros r; rewrite P1, H; tauto|intros s HD; apply P2, H, HD|intros s x E; eapply H, P3, E]. Qed.

  Lemma app_inj_len (a b c d : list F) : length a = length c -> (a ++ b = c ++ d <-> a = c /\ b = d).
  Proof. intros L. split; [now apply app_split|]. intros [-> ->]. reflexivity. Qed.

  Lemma equal_ok : forall a b wit wit', typed wit a -> typed wit' b -> hollow false a = hollow false b ->
    enforces (enforce_equal F F a b) (wires a = wires b) (length (wires a)).
  Proof.
    assert (items : forall wit wit' l, Forall (fun a : node => forall b wit wit', typed wit a -> typed wit' b -> hollow false a = hollow false b ->
        enforces (enforce_equal F F a b) (wires a = wires b) (length (wires a))) l ->
      forall m, Forall (typed wit) l -> Forall (typed wit') m -> map (hollow false) l = map (hollow false) m ->
      enforces (eq_items F F (enforce_equal F F) l m) (concat (map wires l) = concat (map wires m)) (length (concat (map wires l)))).
    { intros wit wit' l IH. induction IH as [|x r Hx _ I]; intros [|y s] T1 T2 H; try discriminate.
      - eapply enforces_iff; [apply enforces_ret|cbn; tauto|reflexivity].
      - injection H as H1 H2. inversion T1; subst. inversion T2; subst. cbn [eq_items map concat].
        eapply enforces_iff; [eapply enforces_bind; [eapply Hx; eauto|apply I; auto]| |now rewrite app_length].
        now rewrite app_inj_len by now apply hollow_len. }
    intros a. induction a as [w|v| | |l IH|a1 a2 I1 I2|g IH|n l IH|i fs IH|g IH] using node_ind2;
      intros [w'|v'| | |l'|b1 b2|g'|n' l'|i' fs'|g'] wit wit' T1 T2 H; try contradiction; rewrite ?hollow_array, ?hollow_vec, ?hollow_struct in H; try discriminate.
    - eapply enforces_iff; [apply enforces_ret|cbn; tauto|reflexivity].
    - injection H as H. apply typed_array in T1, T2. rewrite !wires_array. eapply items; eauto.
    - injection H as H1 H2. destruct T1, T2. cbn [enforce_equal wires].
      eapply enforces_iff; [eapply enforces_bind; [eapply I1; eauto|eapply I2; eauto]| |now rewrite app_length].
      now rewrite app_inj_len by now apply hollow_len.
    - injection H as H. cbn [typed] in T1, T2. cbn [enforce_equal wires]. eapply IH; eauto.
    - injection H as _ H. apply typed_vec in T1, T2. rewrite !wires_vec. destruct T1 as [_ T1], T2 as [_ T2]. eapply items; eauto.
    - injection H as _ H. apply typed_struct in T1, T2. destruct T1 as [_ T1], T2 as [_ T2]. rewrite !wires_struct. cbn [enforce_equal].
      revert fs' H T2. induction IH as [|[a x] r Hx _ I]; intros [|[b y] s] H T2; try discriminate.
      + eapply enforces_iff; [apply enforces_ret|cbn; tauto|reflexivity].
      + injection H as -> H1 H2. inversion T1 as [|? ? Tx Tr]; subst. inversion T2 as [|? ? Ty Ts]; subst. cbn [eq_fields map concat snd].
        cbn [snd] in Hx. eapply enforces_iff; [eapply enforces_bind; [|apply I; auto]| |now rewrite app_length];
          [|now rewrite app_inj_len by now apply hollow_len].
        assert (Gd : declared b T_gadget /\ typed wit x -> typed wit' y -> enforces match classify b with Some T_gadget => enforce_equal F F x y | _ => GErr end (wires x = wires y) (length (wires x))).
        { intros [D Tx'] Ty'. apply classify_ok in D. rewrite D. eapply Hx; eauto. }
        unfold tfield in Tx, Ty. destruct x as [w|v| | |l|c1 c2|g|n l|j gs|g]; destruct y as [w'|v'| | |l'|d1 d2|g'|n' l'|j' gs'|g']; try discriminate;
          try (specialize (Gd Tx (proj2 Ty)); destruct (classify b) as [[| | |]|]; exact Gd).
        * apply classify_ok in Tx. rewrite Tx. cbn [wires length]. eapply enforces_iff; [apply enforces_equal| |reflexivity]. split; [intros ->|intros E; injection E]; auto.
        * destruct Tx as [Tx _]. apply classify_ok in Tx. rewrite Tx. eapply enforces_iff; [apply enforces_ret|cbn; tauto|reflexivity].
        * apply classify_ok in Tx. rewrite Tx. eapply enforces_iff; [apply enforces_ret|cbn; tauto|reflexivity].
    - injection H as H. cbn [typed] in T1, T2. cbn [enforce_equal wires]. eapply IH; eauto.
  Qed.

  (** ** consistency *)
  Variable cb : F.
  (** [p] enforces [C] without witness values, and runs iff [D] with them *)
  Definition checks (wit : bool) (p : G F F unit) (C : Prop) : Prop :=
    if wit then forall s, (exists s', simulate p s = Some (tt, s')) <-> C else forall r, holds p r <-> C /\ r = tt.
  Lemma checks_ret wit : checks wit (GRet tt) True.
  Proof. destruct wit; cbn; [intros s; split; eauto|intros []; tauto]. Qed.
  Lemma checks_bind wit (p q : G F F unit) C D : checks wit p C -> checks wit q D -> checks wit (gbind p (fun _ => q)) (C /\ D).
  Proof.
    unfold checks. destruct wit; intros P Q.
    - intros s. rewrite sim_bind. split.
      + intros (s' & H). destruct (simulate p s) as [[[] s1]|] eqn:E; [|discriminate]. split; [apply (P s); eauto|apply (Q s1); eauto].
      + intros [HC HD]. apply (P s) in HC. destruct HC as (s1 & ->). apply Q, HD.
    - intros r. rewrite holds_bind. split.
      + intros ([] & H1 & H2). apply P in H1. apply Q in H2. tauto.
      + intros [[HC HD] ->]. exists tt. split; [now apply P|now apply Q].
  Qed.
  Lemma checks_iff wit p C D : checks wit p C -> (C <-> D) -> checks wit p D.
  Proof. unfold checks. destruct wit; intros P H; [intros s; rewrite P; exact H|intros r; rewrite P, H; tauto]. Qed.

  Definition bool_fine (wit : bool) (b : F * option bool) : Prop :=
    if wit then exists v, snd b = Some v /\ fst b = fe F v else fst b = 0 \/ fst b = 1.
  Definition point_fine (wit : bool) (p : (F * F) * option (F * F)) : Prop :=
    (wit = true -> snd p = Some (fst p)) /\ on_curve cb (fst p).

  Lemma b_consistent_ok wit (b : bool_g F) : (bv F b <> None <-> wit = true) ->
    checks wit (b_consistent F F b) (bool_fine wit (bw F b, bv F b)).
  Proof.
    destruct b as [w v]. cbn [bw bv]. intros Hv. unfold b_consistent, checks, bool_fine. cbn [bv fst snd].
    assert (Q : forall w' v', enforce_equal F F (n_bool (mk_bool F w' v')) (n_bool (mk_bool F w v)) = gbind (g_equal F F w' w) (fun _ => gbind (GRet tt) (fun _ => GRet tt))) by reflexivity.
    destruct wit.
    - destruct v as [v|]; [|exfalso; now apply Hv]. intros s. rewrite sim_bind, b_alloc_s. unfold bhon. rewrite Q. rewrite sim_bind. split.
      + intros (s' & H). exists v. split; [reflexivity|]. destruct (feqb (fe F v) w) eqn:E; [apply feqb_true in E; auto|].
        apply (feqb_false F) in E. rewrite equal_s_bad in H by assumption. discriminate.
      + intros (v' & E & ->). injection E as <-. rewrite equal_s by reflexivity. cbn. eauto.
    - destruct v as [v|]; [destruct Hv as [Hv _]; discriminate Hv; discriminate|]. intros r. rewrite holds_bind. split.
      + intros (x & Hx & H). apply b_alloc_w in Hx. destruct Hx as (b & ->). unfold bwir in H. rewrite Q, holds_bind in H. destruct H as (u & Hu & H).
        apply equal_w in Hu. destruct Hu as [<- _]. cbn in H. split; [destruct b; cbn; auto|]. now destruct r.
      + intros [H ->]. assert (exists b, w = fe F b) as [b ->] by (destruct H as [-> | ->]; [exists false|exists true]; reflexivity).
        exists (bwir (fe F b)). split; [apply b_alloc_w; eauto|]. unfold bwir. rewrite Q, holds_bind. exists tt. split; [now apply equal_w|reflexivity].
  Qed.
  Lemma p_consistent_ok wit (x y : elem F F) : (ev F F x <> None <-> wit = true) -> (ev F F y <> None <-> wit = true) ->
    checks wit (p_consistent F F 1 cb (mk_point F F x y)) (point_fine wit ((ew F F x, ew F F y), lift2 pair (ev F F x) (ev F F y))).
  Proof.
    destruct x as [x vx], y as [y vy]. cbn [ew ev]. intros Hx Hy. unfold p_consistent, checks, point_fine. cbn [px py ew ev fst snd]. destruct wit.
    - destruct vx as [vx|]; [|exfalso; now apply Hx]. destruct vy as [vy|]; [|exfalso; now apply Hy]. intros s. cbn [lift2 try_just fst snd].
      destruct (feqb (vy * vy) (vx * (vx * vx) + cb)) eqn:E.
      + cbn [gbind]. rewrite sim_bind, p_alloc_s, E. cbn [phon px py hon ew fst snd]. rewrite sim_bind. apply feqb_true in E.
        split.
        * intros (s' & H). destruct (feqb vx x) eqn:E1; [|apply (feqb_false F) in E1; rewrite equal_s_bad in H by assumption; discriminate].
          apply feqb_true in E1. subst x. rewrite equal_s in H by reflexivity.
          destruct (feqb vy y) eqn:E2; [|apply (feqb_false F) in E2; rewrite equal_s_bad in H by assumption; discriminate].
          apply feqb_true in E2. subst y. split; [auto|exact E].
        * intros [H _]. specialize (H eq_refl). injection H as -> ->. rewrite !equal_s by reflexivity. eauto.
      + cbn [gbind simulate]. apply (feqb_false F) in E. split; [intros (s' & H); discriminate|]. intros [H O]. specialize (H eq_refl). injection H as -> ->.
        elim E. exact O.
    - destruct vx as [vx|]; [destruct Hx as [Hx _]; discriminate Hx; discriminate|]. destruct vy as [vy|]; [destruct Hy as [Hy _]; discriminate Hy; discriminate|].
      intros r. cbn [lift2 try_just gbind]. rewrite holds_bind. split.
      + intros (q & Hq & H). apply p_alloc_w in Hq. destruct Hq as ([x' y'] & O & ->). cbn [pwir px py wir ew fst snd] in H.
        rewrite equal_bw, equal_w in H. destruct H as (-> & -> & ->). split; [split; [discriminate|assumption]|reflexivity].
      + intros [[_ O] ->]. exists (pwir (x, y)). split; [apply p_alloc_w; eauto|]. cbn [pwir px py wir ew fst snd]. rewrite equal_bw, equal_w. auto.
  Qed.

  Lemma booleans_array l : booleans (NArray l : node) = concat (map booleans l). Proof. apply concat_fix. Qed.
  Lemma booleans_vec n l : booleans (NVec n l : node) = concat (map booleans l). Proof. apply concat_fix. Qed.
  Lemma points_array l : points (NArray l : node) = concat (map points l). Proof. apply concat_fix. Qed.
  Lemma points_vec n l : points (NVec n l : node) = concat (map points l). Proof. apply concat_fix. Qed.
  Lemma booleans_derived fs : booleans (NStruct I_derived fs : node) = concat (map (fun ax => booleans (snd ax)) fs). Proof. apply concat_fix2. Qed.
  Lemma points_derived fs : points (NStruct I_derived fs : node) = concat (map (fun ax => points (snd ax)) fs). Proof. apply concat_fix2. Qed.

  Definition fine (wit : bool) (g : node) : Prop := Forall (bool_fine wit) (booleans g) /\ Forall (point_fine wit) (points g).
  Definition go_items : list node -> G F F unit :=
    fix go (l : list node) : G F F unit := match l with [] => GRet tt | x :: r => gbind (enforce_consistent F F 1 cb x) (fun _ => go r) end.
  Lemma undemoted_all (l : list node) : (fix all l := match l with [] => True | x :: r => undemoted x /\ all r end) l <-> Forall undemoted l.
  Proof. induction l as [|x r IH]; [split; auto|]. rewrite IH. split; [intros []; auto|]. intros H. inversion H; auto. Qed.
  Lemma undemoted_fields (fs : list (list attr * node)) :
    (fix all (l : list (list attr * node)) : Prop := match l with [] => True | (_, x) :: r => undemoted x /\ all r end) fs <-> Forall (fun ax => undemoted (snd ax)) fs.
  Proof. induction fs as [|[a x] r IH]; [split; auto|]. rewrite IH. split; [intros []; auto|]. intros H. inversion H; auto. Qed.

  Lemma consistent_ok : forall g wit, typed wit g -> undemoted g -> checks wit (enforce_consistent F F 1 cb g) (fine wit g).
  Proof.
    assert (items : forall wit l, Forall (fun g : node => forall wit, typed wit g -> undemoted g -> checks wit (enforce_consistent F F 1 cb g) (fine wit g)) l ->
      Forall (typed wit) l -> Forall undemoted l ->
      checks wit (go_items l) (Forall (bool_fine wit) (concat (map booleans l)) /\ Forall (point_fine wit) (concat (map points l)))).
    { intros wit l IH T U. induction IH as [|x r Hx _ I]; cbn [go_items map concat].
      - eapply checks_iff; [apply checks_ret|]. split; auto.
      - inversion T; subst. inversion U; subst. eapply checks_iff; [eapply checks_bind; [apply Hx; auto|apply I; auto]|].
        unfold fine. rewrite !Forall_app. tauto. }
    intros g. induction g as [w|v| | |l IH|a b I1 I2|g IH|n l IH|i fs IH|g IH] using node_ind2; intros wit T U; try contradiction.
    - eapply checks_iff; [apply checks_ret|]. split; [split; constructor|auto].
    - apply typed_array in T. cbn [undemoted] in U. rewrite undemoted_all in U. unfold fine. rewrite booleans_array, points_array. now apply items.
    - destruct T as [Ta Tb], U as [Ua Ub]. cbn [enforce_consistent]. eapply checks_iff; [eapply checks_bind; [apply I1; auto|apply I2; auto]|].
      unfold fine. cbn [booleans points]. rewrite !Forall_app. tauto.
    - now apply IH.
    - apply typed_vec in T. destruct T as [_ T]. cbn [undemoted] in U. rewrite undemoted_all in U. unfold fine. rewrite booleans_vec, points_vec. now apply items.
    - apply typed_struct in T. destruct T as [Ft T]. cbn [undemoted] in U. rewrite undemoted_fields in U. destruct i; cbn [fits] in Ft.
      + unfold fine. rewrite booleans_derived, points_derived. cbn [enforce_consistent]. clear Ft.
        induction IH as [|[a x] r Hx _ I]; cbn [map concat].
        * eapply checks_iff; [apply checks_ret|]. split; auto.
        * inversion T as [|? ? Tx Tr]; subst. inversion U as [|? ? Ux Ur]; subst. cbn [snd] in *.
          assert (Hn : forall t, declared a t -> t <> T_gadget -> should_enforce a = false).
          { intros t D N. apply classify_ok in D. destruct (should_enforce a) eqn:E; [|reflexivity]. apply (enforce_ok a t D) in E. contradiction. }
          eapply checks_iff; [eapply checks_bind with (C := fine wit x); [|apply I; auto]|unfold fine; rewrite !Forall_app; tauto].
          assert (Gd : declared a T_gadget /\ typed wit x -> checks wit (if should_enforce a then enforce_consistent F F 1 cb x else GRet tt) (fine wit x)).
          { intros [D Tx']. apply classify_ok in D. rewrite (proj2 (enforce_ok a T_gadget D) eq_refl). auto. }
          assert (Tr' : checks wit (GRet tt) (fine wit (NPhantom : node))) by (eapply checks_iff; [apply checks_ret|split; [split; constructor|auto]]).
          unfold tfield in Tx. destruct x; try (exact (Gd Tx)).
          -- rewrite (Hn _ Tx) by discriminate. exact Tr'.
          -- rewrite (Hn _ (proj1 Tx)) by discriminate. exact Tr'.
          -- rewrite (Hn _ Tx) by discriminate. exact Tr'.
      + destruct Ft as (e & E). destruct e as [w v]. unfold n_elem in E. injection E as ->. cbn. unfold fine. cbn.
        assert (X : checks wit (GRet tt) (Forall (bool_fine wit) [] /\ Forall (point_fine wit) [])) by (eapply checks_iff; [apply checks_ret|split; auto]).
        exact X.
      + destruct Ft as (b & E). destruct b as [w v]. unfold n_bool in E. injection E as ->. inversion T as [|? ? _ T2]; subst. inversion T2 as [|? ? T3 _]; subst.
        destruct T3 as [_ T3]. cbn [bw bv] in *. unfold fine.
        assert (B : booleans (NStruct I_boolean [([A_wire], NWire w); ([A_value], NValue (option_map VB v))] : node) = [(w, v)]) by (destruct v; reflexivity).
        assert (P : points (NStruct I_boolean [([A_wire], NWire w); ([A_value], NValue (option_map VB v))] : node) = []) by reflexivity.
        rewrite B, P. assert (Ab : as_bool [([A_wire], NWire w : node); ([A_value], NValue (option_map VB v))] = Some (mk_bool F w v)) by (destruct v; reflexivity).
        cbn [enforce_consistent]. rewrite Ab. eapply checks_iff; [apply b_consistent_ok|].
        * cbn [bv]. rewrite <- T3. destruct v; split; intros H K; try discriminate; now elim H.
        * split; [intros H; split; auto|]. intros [H _]. now inversion H.
      + destruct Ft as (p & E). destruct p as [x y]. unfold n_point in E. cbn [px py] in E. injection E as ->.
        inversion T as [|? ? Tx T2]; subst. inversion T2 as [|? ? Ty _]; subst.
        assert (Ve : forall e : elem F F, tfield wit ([A_gadget], n_elem e) -> (ev F F e <> None <-> wit = true)).
        { intros e [_ Te]. unfold n_elem in Te. apply typed_struct in Te. destruct Te as [_ Te]. inversion Te as [|? ? _ Te2]; subst. inversion Te2 as [|? ? Te3 _]; subst.
          destruct Te3 as [_ Te3]. rewrite <- Te3. destruct (ev F F e); split; intros H K; try discriminate; now elim H. }
        assert (Ae : forall e : elem F F, as_elem (n_elem e) = Some e) by (intros [w [v|]]; reflexivity).
        assert (Co : forall e : elem F F, coord (n_elem e) = Some (ew F F e, ev F F e)) by (intros [w [v|]]; reflexivity).
        assert (Be : forall e : elem F F, booleans (n_elem e) = []) by reflexivity.
        cbn [enforce_consistent]. unfold as_point. rewrite !Ae. unfold fine. cbn [points booleans]. rewrite !Co, !Be. cbn [app].
        eapply checks_iff; [apply p_consistent_ok; auto|]. split; [intros H; split; auto|]. intros [_ H]. now inversion H.
      + destruct Ft as (g & e & E). unfold n_suffix in E. injection E as ->. cbn [enforce_consistent]. inversion IH as [|? ? Ig _]; subst.
        inversion T as [|? ? Tg _]; subst. inversion U as [|? ? Ug _]; subst. cbn [snd] in *.
        assert (Tg' : typed wit g \/ booleans g = [] /\ False). { left. unfold tfield in Tg. destruct g; try exact (proj2 Tg).
          - destruct Tg as [Tg _]. exfalso. pose proof (Tg) as K. cbn in K. destruct K as [K|[]]. discriminate.
          - destruct Tg as [[Tg _] _]. exfalso. cbn in Tg. destruct Tg as [K|[]]. discriminate.
          - destruct Tg as [Tg _]. exfalso. cbn in Tg. destruct Tg as [K|[]]. discriminate. }
        destruct Tg' as [Tg'|[_ []]]. eapply checks_iff; [apply Ig; auto|].
        assert (Be : booleans (n_elem e) = [] /\ points (n_elem e) = []) by (split; reflexivity). destruct Be as [Be Pe].
        unfold fine. cbn [points booleans]. rewrite Be, Pe, !app_nil_r. tauto.
  Qed.
End Enforce.

(** ** serialization *)
Section Write.
  Context {F : Field} {W : Type}.
  Local Notation node := (node F W).
  Fixpoint write_all {W' B} (write : B -> elem F W -> G F W' B) (es : list (elem F W)) (buf : B) : G F W' B :=
    match es with [] => GRet buf | e :: r => gbind (write buf e) (fun buf => write_all write r buf) end.
  (** indistinguishable to a verifier and to the simulator *)
  Definition same {A} (p q : G F F A) : Prop := (forall r, holds p r <-> holds q r) /\ (forall s, simulate p s = simulate q s).
  Lemma same_refl {A} (p : G F F A) : same p p. Proof. split; tauto. Qed.
  Lemma same_trans {A} (p q r : G F F A) : same p q -> same q r -> same p r.
  Proof. intros [A1 A2] [B1 B2]. split; [intros x; now rewrite A1|intros s; now rewrite A2]. Qed.
  Lemma same_bind {A C} (p q : G F F A) (k l : A -> G F F C) : same p q -> (forall a, same (k a) (l a)) -> same (gbind p k) (gbind q l).
  Proof.
    intros [P1 P2] H. split.
    - intros r. rewrite !holds_bind. split; intros (x & A1 & A2); exists x; (split; [now apply P1|]); now apply (H x).
    - intros s. rewrite !sim_bind, P2. destruct (simulate q s) as [[x s']|]; [|reflexivity]. apply (H x).
  Qed.
  Lemma write_all_app {B} (write : B -> elem F W -> G F F B) es fs buf :
    same (write_all write (es ++ fs) buf) (gbind (write_all write es buf) (fun b => write_all write fs b)).
  Proof.
    revert buf. induction es as [|e r IH]; intros buf; [apply same_refl|]. cbn [write_all app]. split.
    - intros x. rewrite !holds_bind. split.
      + intros (b & H1 & H2). apply IH in H2. rewrite holds_bind in H2. destruct H2 as (b' & H2 & H3). exists b'. split; [|assumption].
        rewrite holds_bind. eauto.
      + intros (b & H1 & H2). rewrite holds_bind in H1. destruct H1 as (b' & H1 & H3). exists b'. split; [assumption|]. apply IH. rewrite holds_bind. eauto.
    - intros s. rewrite !sim_bind. destruct (simulate (write buf e) s) as [[b s']|]; [|reflexivity]. rewrite (proj2 (IH b)), sim_bind. reflexivity.
  Qed.

  (** writing [g] is writing the elements [es] one by one *)
  Definition writes (g : node) (es : list (elem F W)) : Prop :=
    (forall B (write : B -> elem F W -> G F F B) buf, same (write_gadget write g buf) (write_all write es buf)) /\
    (forall W' B (f : B -> elem F W -> B) buf, write_gadget (W' := W') (fun b e => GRet (f b e)) g buf = GRet (fold_left f es buf)).
  Definition carries (es : list (elem F W)) (ws : list W) (vs : list (option (val F))) : Prop :=
    map (ew F W) es = ws /\ map (ev F W) es = map val_fe vs.

  Lemma carries_app es fs ws xs vs ys : carries es ws vs -> carries fs xs ys -> carries (es ++ fs) (ws ++ xs) (vs ++ ys).
  Proof. unfold carries. intros [<- A] [<- B]. now rewrite !map_app, A, B. Qed.
  Definition w_items {W' B} (write : B -> elem F W -> G F W' B) : list node -> B -> G F W' B :=
    fix go (l : list node) (buf : B) : G F W' B := match l with [] => GRet buf | x :: r => gbind (write_gadget write x buf) (fun buf => go r buf) end.
  Definition w_fields {W' B} (write : B -> elem F W -> G F W' B) : list (list attr * node) -> B -> G F W' B :=
    fix go (l : list (list attr * node)) (buf : B) : G F W' B :=
           match l with
           | [] => GRet buf
           | (a, x) :: r => gbind (if serialized a then write_gadget write x buf else GRet buf) (fun buf => go r buf)
           end.
  Lemma elem_back (e : elem F W) : as_elem (n_elem e) = Some e. Proof. destruct e as [w [v|]]; reflexivity. Qed.
  Lemma elem_writes (e : elem F W) : writes (n_elem e) [e] /\ carries [e] (wires (n_elem e)) (values (n_elem e)).
  Proof.
    split; [split|].
    - intros B write buf. assert (E : write_gadget write (n_elem e) buf = write buf e) by (destruct e as [w [v|]]; reflexivity). rewrite E. cbn [write_all].
      split; [intros r; rewrite holds_bind; cbn; split; [eauto|intros (x & H & <-); exact H]|intros s; rewrite sim_bind; destruct (simulate (write buf e) s) as [[? ?]|]; reflexivity].
    - intros W' B f buf. destruct e as [w [v|]]; reflexivity.
    - split; [reflexivity|]. destruct e as [w [v|]]; reflexivity.
  Qed.
  Lemma writes_seq (g h k : node) es fs :
    (forall W' B (write : B -> elem F W -> G F W' B) buf, write_gadget write k buf = gbind (write_gadget write g buf) (fun b => write_gadget write h b)) ->
    writes g es -> writes h fs -> writes k (es ++ fs).
  Proof.
    intros E [G1 G2] [H1 H2]. split.
    - intros B write buf. rewrite E. eapply same_trans; [apply same_bind; [apply G1|intros b; apply H1]|]. split; [intros r; symmetry; apply write_all_app|intros s; symmetry; apply write_all_app].
    - intros W' B f buf. rewrite E, G2. cbn [gbind]. now rewrite H2, fold_left_app.
  Qed.

  Lemma map_fix {A B} (f : A -> B) l : (fix go l := match l with [] => [] | x :: r => f x :: go r end) l = map f l.
  Proof. induction l as [|x r IH]; [reflexivity|]. cbn. now rewrite IH. Qed.
  Lemma prune_array l : prune (NArray l : node) = NArray (map prune l).
  Proof. exact (f_equal NArray (map_fix prune l)). Qed.
  Lemma prune_vec n l : prune (NVec n l : node) = NVec n (map prune l).
  Proof. exact (f_equal (NVec n) (map_fix prune l)). Qed.
  Lemma plain_all (l : list node) : (fix all l := match l with [] => True | x :: r => plain x /\ all r end) l <-> Forall plain l.
  Proof. induction l as [|x r IH]; [split; auto|]. rewrite IH. split; [intros []; auto|]. intros H. inversion H; auto. Qed.
  Lemma not_phantom a : declared a T_gadget -> serialized a = negb (has A_skip a).
  Proof.
    intros D. unfold serialized. assert (H : has A_phantom a = false); [|rewrite H; now rewrite orb_false_r].
    destruct (has A_phantom a) eqn:E; [|reflexivity]. apply has_in in E. destruct D as [[_ D]|D].
    - assert (A_phantom = A_gadget) by (apply D; [cbn; auto|assumption]). discriminate.
    - elim (D A_phantom); [cbn; auto|assumption].
  Qed.

  Lemma write_ok : forall g wit, typed wit g -> plain g -> exists es, carries es (wires (prune g)) (values (prune g)) /\ writes g es.
  Proof.
    assert (items : forall wit l, Forall (fun g : node => forall wit, typed wit g -> plain g -> exists es, carries es (wires (prune g)) (values (prune g)) /\ writes g es) l ->
      Forall (typed wit) l -> Forall plain l ->
      exists es, carries es (concat (map wires (map prune l))) (concat (map values (map prune l))) /\ writes (NArray l) es).
    { intros wit l IH T P. induction IH as [|x r Hx _ I].
      - exists []. split; [split; reflexivity|]. split; [intros; apply same_refl|reflexivity].
      - inversion T; subst. inversion P; subst. destruct (Hx wit) as (es & C & Wr); auto. destruct I as (fs & C' & Wr'); auto.
        exists (es ++ fs). split; [cbn [map concat]; now apply carries_app|]. eapply writes_seq; [|exact Wr|exact Wr']. reflexivity. }
    intros g. induction g as [w|v| | |l IH|a b I1 I2|g IH|n l IH|i fs IH|g IH] using node_ind2; intros wit T P; try contradiction.
    - exists []. split; [split; reflexivity|]. split; [intros; apply same_refl|reflexivity].
    - apply typed_array in T. cbn [plain] in P. rewrite plain_all in P. rewrite prune_array, wires_array, values_array. now apply (items wit).
    - destruct T as [Ta Tb], P as [Pa Pb]. destruct (I1 wit) as (es & C & Wr); auto. destruct (I2 wit) as (fs & C' & Wr'); auto.
      exists (es ++ fs). split; [now apply carries_app|]. eapply writes_seq; [|exact Wr|exact Wr']. reflexivity.
    - now apply (IH wit).
    - apply typed_vec in T. destruct T as [_ T]. cbn [plain] in P. rewrite plain_all in P. rewrite prune_vec, wires_vec, values_vec. destruct (items wit l) as (es & C & Wr); auto.
      exists es. split; [assumption|]. exact Wr.
    - apply typed_struct in T. destruct T as [Ft T]. destruct i; cbn [fits plain] in Ft, P.
      + clear Ft. induction IH as [|[a x] r Hx _ I].
        * exists []. split; [split; reflexivity|]. split; [intros; apply same_refl|reflexivity].
        * inversion T as [|? ? Tx Tr]; subst. destruct P as [Px Pr]. destruct I as (fs & C' & Wr'); auto. cbn [snd] in Hx.
          assert (Sk : serialized a = false -> (In A_skip a \/ x = NPhantom) -> exists es, carries es (wires (prune (NStruct I_derived ((a, x) :: r)))) (values (prune (NStruct I_derived ((a, x) :: r)))) /\ writes (NStruct I_derived ((a, x) :: r)) es).
          { intros Sa H. exists fs. split.
            - destruct (in_dec attr_dec A_skip a) as [N|N].
              + assert (E : prune (NStruct I_derived ((a, x) :: r)) = prune (NStruct I_derived r)) by (cbn [prune]; destruct (in_dec attr_dec A_skip a); [reflexivity|contradiction]).
                now rewrite E.
              + destruct H as [H| ->]; [contradiction|].
                set (pr := prune (NStruct I_derived ((a, NPhantom) :: r))). cbn [prune] in pr. destruct (in_dec attr_dec A_skip a) as [N'|_]; [contradiction|]. subst pr. exact C'.
            - destruct Wr' as [W1 W2]. split.
              + intros B write buf. cbn [write_gadget]. rewrite Sa. cbn [gbind]. apply W1.
              + intros W' B f buf. cbn [write_gadget]. rewrite Sa. cbn [gbind]. apply W2. }
          assert (Gd : declared a T_gadget /\ typed wit x -> x <> NPhantom -> exists es, carries es (wires (prune (NStruct I_derived ((a, x) :: r)))) (values (prune (NStruct I_derived ((a, x) :: r)))) /\ writes (NStruct I_derived ((a, x) :: r)) es).
          { intros [D Tx'] Nx. apply not_phantom in D. destruct (has A_skip a) eqn:Hs.
            - apply Sk; [assumption|]. left. now apply has_in.
            - assert (N : ~ In A_skip a) by (intros N; apply has_in in N; congruence). destruct Px as [Px|[Px|Px]]; [contradiction|contradiction|].
              destruct (Hx wit Tx' Px) as (es & C & Wr). exists (es ++ fs). split.
              + set (pr := prune (NStruct I_derived ((a, x) :: r))). cbn [prune] in pr. destruct (in_dec attr_dec A_skip a) as [N'|_]; [contradiction|]. subst pr.
                now apply carries_app.
              + eapply writes_seq; [|exact Wr|exact Wr']. intros W' B write buf. cbn [write_gadget]. rewrite D. reflexivity. }
          assert (Sp : In A_skip a -> serialized a = false) by (intros N; apply has_in in N; unfold serialized; now rewrite N).
          unfold tfield in Tx. destruct x; try (apply Gd; [exact Tx|discriminate]).
          -- destruct Px as [Px|[Px|[]]]; [|discriminate]. apply Sk; auto.
          -- destruct Px as [Px|[Px|[]]]; [|discriminate]. apply Sk; auto.
          -- apply Sk; [|auto]. destruct Tx as [Tx _]. apply has_in in Tx. unfold serialized. rewrite Tx. now rewrite orb_true_r.
      + destruct Ft as (e & E). rewrite E. exists [e]. destruct (elem_writes e) as [H1 H2]. split; [exact H2|exact H1].
      + destruct Ft as (b & E). rewrite E. exists [b_elem F W b]. destruct (elem_writes (b_elem F W b)) as [[H1 H2] H3].
        destruct b as [w [v|]]; (split; [split; reflexivity|]); (split; [intros B write buf; exact (H1 B write buf)|intros W' B f buf; exact (H2 W' B f buf)]).
      + destruct Ft as (p & E). rewrite E. destruct p as [x y]. exists ([x] ++ [y]).
        destruct (elem_writes x) as [Wx Cx], (elem_writes y) as [Wy Cy].
        split; [apply (carries_app [x] [y] (wires (n_elem x)) (wires (n_elem y)) (values (n_elem x)) (values (n_elem y)) Cx Cy)|].
        assert (H : writes (NPair (n_elem x) (n_elem y)) ([x] ++ [y])) by (eapply writes_seq; [|exact Wx|exact Wy]; reflexivity).
        destruct H as [H1 H2]. assert (Eq : forall W' B (write : B -> elem F W -> G F W' B) buf, write_gadget write (n_point (mk_point F W x y)) buf =
          gbind (write_gadget write (n_elem x) buf) (fun b => gbind (write_gadget write (n_elem y) b) (fun b => GRet b))) by reflexivity.
        split.
        * intros B write buf. eapply same_trans; [|apply H1]. rewrite Eq. cbn [write_gadget]. apply same_bind; [apply same_refl|]. intros b.
          split; [intros r; rewrite holds_bind; cbn [holds]; split; [intros (z & Hz & <-)|]; eauto|intros s; rewrite sim_bind; destruct (simulate _ s) as [[? ?]|]; reflexivity].
        * intros W' B f buf. rewrite Eq. rewrite (proj2 Wx). cbn [gbind]. rewrite (proj2 Wy). reflexivity.
      + destruct Ft as (g & e & E). unfold n_suffix in E. injection E as ->. inversion IH as [|? ? Ig _]; subst. inversion T as [|? ? Tg _]; subst. cbn [snd] in *.
        assert (Tg' : typed wit g). { unfold tfield in Tg. destruct g; try exact (proj2 Tg); exfalso; try destruct P. }
        destruct (Ig wit Tg' P) as (es & C & Wr). destruct (elem_writes e) as [We Ce]. exists (es ++ [e]). split.
        * assert (E : prune (NStruct I_suffix [([A_gadget], g); ([A_gadget], n_elem e)]) = NStruct I_suffix [([A_gadget], prune g); ([A_gadget], n_elem e)]) by reflexivity.
          rewrite E. rewrite wires_struct, values_struct. cbn [map snd concat]. rewrite !app_nil_r. now apply carries_app.
        * eapply writes_seq; [|exact Wr|exact We]. reflexivity.
  Qed.

  (** a pipe into another simulation *)
  Lemma pipe_all (f : list (elem F F) -> elem F F -> list (elem F F)) vs : forall (es : list (elem F W)) buf s, map (ev F W) es = map Some vs ->
    simulate (write_all (pipe_write (fun b e => GRet (f b e)) true) es buf) s = Some (fold_left f (map (fun v => mk_elem F F v (Some v)) vs) buf, bump s (length vs) 0 0).
  Proof.
    induction vs as [|v r IH]; intros [|e es] buf s H; try discriminate.
    - cbn. unfold bump. destruct s. cbn. now rewrite !Nat.add_0_r.
    - injection H as E H. cbn [write_all]. rewrite sim_bind. unfold pipe_write at 1. rewrite E.
      assert (A : simulate (gbind (e_alloc F F (Some v)) (fun e' => GRet (f buf e'))) s = Some (f buf (mk_elem F F v (Some v)), bump s 1 0 0)).
      { cbn. unfold bump. rewrite !Nat.add_0_r, Nat.add_1_r. reflexivity. }
      rewrite A. rewrite IH by assumption. rewrite bump_bump. reflexivity.
  Qed.
End Write.

(** ** routines *)
Section Routine.
  Variable F : Field.
  Add Field FFu18 : (f_theory F).
  Open Scope f_scope.

  Lemma wl_bind {A B} (p : G F unit A) (f : A -> G F unit B) :
    emulate_wireless (gbind p f) = match emulate_wireless p with Some a => emulate_wireless (f a) | None => None end.
  Proof. induction p as [a| |w k IH|v k IH|lc k IH|lc k IH]; cbn; auto. Qed.

  Local Notation non := (mk_elem F unit tt None).
  Lemma squarings_wl k : emulate_wireless (e_squarings F unit k non) = Some non.
  Proof. induction k as [|k IH]; [reflexivity|]. cbn [e_squarings]. rewrite wl_bind. exact IH. Qed.
  Lemma loop_wl k : emulate_wireless (g_txz_loop F unit k non non non non) = Some (non, non).
  Proof. induction k as [|k IH]; [reflexivity|]. cbn [g_txz_loop]. exact IH. Qed.
  Lemma execute_wl k : emulate_wireless (g_txz_execute F unit tt k non non None) = Some non.
  Proof.
    unfold g_txz_execute. rewrite wl_bind, squarings_wl. cbn [e_square]. rewrite wl_bind.
    assert (M : emulate_wireless (e_mul F unit non non) = Some non) by reflexivity.
    assert (I : emulate_wireless (e_invert_with F unit tt non None) = Some non) by reflexivity.
    change (e_square F unit non) with (e_mul F unit non non). rewrite M. rewrite wl_bind. change (e_square F unit non) with (e_mul F unit non non). rewrite M.
    rewrite wl_bind, squarings_wl, wl_bind. change (e_square F unit non) with (e_mul F unit non non). rewrite M. cbn [lift1 option_map].
    rewrite wl_bind, I, wl_bind, I. do 4 (rewrite wl_bind, M). rewrite wl_bind, loop_wl. cbn [fst snd]. rewrite wl_bind, M. reflexivity.
  Qed.
  Lemma execute_wl_value k (x z t : F) aux : emulate_wired (g_txz_execute F F 1 k (hon x) (hon z) aux) = Some (hon t) ->
    emulate_wireless (g_txz_execute F unit tt k (mk_elem F unit tt (Some x)) (mk_elem F unit tt (Some z)) aux) = Some (mk_elem F unit tt (Some t)).
  Proof.
    intros E. assert (P : grel (fun _ _ => True) true (erel (fun _ _ => True) true) (g_txz_execute F unit tt k (mk_elem F unit tt (Some x)) (mk_elem F unit tt (Some z)) aux)
      (g_txz_execute F F 1 k (hon x) (hon z) aux)) by (apply g_txz_execute_p; [exact I|split; [exact I|reflexivity]|split; [exact I|reflexivity]|reflexivity]).
    destruct (wireless_wired (fun _ _ => True) _ _ _ (fun _ _ => I) P _ E) as ([[] v] & Ha & _ & Hv). cbn in Hv. rewrite Ha. now rewrite Hv.
  Qed.

  (** the routine t(x,z) as the emulator sees it *)
  Definition txz_p (k : nat) (i : elem F unit * elem F unit) : G F unit (prediction (elem F unit) (option (F * F))) :=
    gbind (g_txz_predict F unit k (fst i) (snd i)) (fun p => GRet (Known (fst p) (snd p))).
  Definition txz_e (k : nat) (i : elem F unit * elem F unit) (aux : option (F * F)) : G F unit (elem F unit) :=
    g_txz_execute F unit tt k (fst i) (snd i) aux.
  Definition wl (v : option F) : elem F unit := mk_elem F unit tt v.

  Lemma predict_wl k x z : x <> 0 -> z <> 0 ->
    emulate_wireless (txz_p k (wl (Some x), wl (Some z))) = Some (Known (wl (Some (t_spec F (2 ^ k) x z))) (Some (finv x, finv z))).
  Proof.
    intros Nx Nz. unfold txz_p. rewrite wl_bind. pose proof (predict_s F k x z (mk_simst 0 0 0)) as P.
    rewrite (proj2 (feqb_false F _ _) Nx), (proj2 (feqb_false F _ _) Nz) in P. cbn [orb] in P. apply simulate_emulate in P.
    assert (R : grel (fun (_ : unit) (_ : F) => True) true (prel (erel (fun _ _ => True) true) (vrel true)) (g_txz_predict F unit k (wl (Some x)) (wl (Some z))) (g_txz_predict F F k (hon x) (hon z)))
      by (apply g_txz_predict_p; (split; [exact I|reflexivity])).
    destruct (wireless_wired (fun _ _ => True) _ _ _ (fun _ _ => I) R _ P) as ([[[] v] a] & Ha & [_ Hv] & Hw). cbn in Hv, Hw. cbn [fst snd]. rewrite Ha. cbn. now rewrite Hv, Hw.
  Qed.
  Lemma predict_wl_zero k x z : x = 0 \/ z = 0 -> emulate_wireless (txz_p k (wl (Some x), wl (Some z))) = None.
  Proof.
    intros H. unfold txz_p. rewrite wl_bind. unfold g_txz_predict, wl. cbn [fst snd ev lift2 try_just]. unfold inv_opt.
    assert (E : match (if feqb x 0 then None else Some (finv x)), (if feqb z 0 then None else Some (finv z)) with Some a, Some b => Some (a, b) | _, _ => None end = @None (F * F)).
    { destruct H as [-> | ->]; rewrite feqb_refl; [reflexivity|]. now destruct (feqb x 0). }
    rewrite E. reflexivity.
  Qed.
  Lemma short_wl {I O A} p e (i : I) : emulate_wireless (short_circuit (F := F) (O := O) (A := A) p e i) =
    match emulate_wireless (p i) with Some (Known o _) => Some o | Some (Unknown a) => emulate_wireless (e i a) | None => None end.
  Proof. unfold short_circuit. rewrite wl_bind. destruct (emulate_wireless (p i)) as [[o a|a]|]; reflexivity. Qed.
  Lemma default_wl {I O A} p e (i : I) : emulate_wireless (default_routine (F := F) (O := O) (A := A) p e i) =
    match emulate_wireless (p i) with Some q => emulate_wireless (e i (into_aux q)) | None => None end.
  Proof. unfold default_routine. now rewrite wl_bind. Qed.
End Routine.
