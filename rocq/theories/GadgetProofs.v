(** Gadget rules: exact meaning of each gadget's constraints, and the result of
    simulating it on honest values. *)
From Coq Require Import List Arith NArith Bool Lia Ring Field.
From Verif Require Import FieldDef ArithModel ArithSpec ArithProofs GadgetModel GadgetSpec.
Import ListNotations.

Section GP.
  Variable F : Field.
  Add Field FFgp : (f_theory F).
  Open Scope f_scope.

  Lemma lin_spec_nil (W : Type) (v : W -> F) : lin_spec v [] = 0.
  Proof. reflexivity. Qed.
  Lemma lin_spec_cons (W : Type) (v : W -> F) op ops :
    lin_spec v (op :: ops) = call_sum v op + gains [op] * lin_spec v ops.
  Proof.
    unfold lin_spec. cbn [length]. rewrite fsum_S_first. cbn [firstn nth_error]. rewrite <- fsum_scale.
    replace (gains (@nil (lcall F W))) with (1 : F) by reflexivity.
    f_equal; [ring|]. apply fsum_ext. intros i _. unfold gains, lprod. cbn [firstn map fold_right]. ring.
  Qed.

  Lemma holds_bind {A B : Type} (p : G F F A) (f : A -> G F F B) r :
    holds (gbind p f) r <-> exists x, holds p x /\ holds (f x) r.
  Proof.
    induction p as [a| |w k IH|w k IH|lc k IH|lc k IH]; cbn [gbind holds].
    - split; [eauto|]. intros (x & <- & H). exact H.
    - split; [intros []|]. intros (x & [] & _).
    - split.
      + intros (a & b & c & d & H1 & H2 & H). apply IH in H. destruct H as (x & Hx & H).
        exists x. split; auto. exists a, b, c, d. auto.
      + intros (x & (a & b & c & d & H1 & H2 & Hx) & H). exists a, b, c, d. repeat split; auto.
        apply IH. eauto.
    - split.
      + intros (v & H). apply IH in H. destruct H as (x & Hx & H). exists x. eauto.
      + intros (x & (v & Hx) & H). exists v. apply IH. eauto.
    - apply IH.
    - rewrite IH. firstorder.
  Qed.
  Lemma sim_bind {A B : Type} (p : G F F A) (f : A -> G F F B) s :
    simulate (gbind p f) s = match simulate p s with Some (a, s') => simulate (f a) s' | None => None end.
  Proof.
    revert s. induction p as [a| |[[[[a b] c] d]|] k IH|[v|] k IH|lc k IH|lc k IH]; intros s; cbn [gbind simulate]; auto.
    - destruct (negb _); auto. destruct (negb _); auto.
    - destruct (negb _); auto.
  Qed.
  (** rules lifted to a continuation *)
  Lemma holds_det {A B : Type} (p : G F F A) x (f : A -> G F F B) r :
    (forall y, holds p y <-> y = x) -> (holds (gbind p f) r <-> holds (f x) r).
  Proof.
    intros H. rewrite holds_bind. split.
    - intros (y & Hy & K). apply H in Hy. now subst.
    - intros K. exists x. split; auto. now apply H.
  Qed.

  (** ** driver helpers *)
  Lemma add_w lc r : holds (g_add F F lc) r <-> r = lin_spec (fun w => w) lc.
  Proof. cbn. split; auto. Qed.
  Lemma enf_w lc r : holds (g_enforce F F lc) r <-> lin_spec (fun w => w) lc = 0 /\ r = tt.
  Proof. cbn. split; intros [H E]; auto. Qed.
  Lemma equal_spec (a b : F) : lin_spec (fun w => w) [LAdd a; LSub b] = a - b.
  Proof. rewrite !lin_spec_cons, lin_spec_nil. cbn. ring. Qed.
  Lemma equal_w (a b : F) r : holds (g_equal F F a b) r <-> a = b /\ r = tt.
  Proof. unfold g_equal. rewrite enf_w, equal_spec, fsub_eq_0. reflexivity. Qed.
  Lemma mul_w w r : holds (g_mul F F w) r <-> exists a b, r = (a, b, a * b).
  Proof.
    cbn. split.
    - intros (a & b & c & d & <- & _ & <-). eauto.
    - intros (a & b & ->). exists a, b, (a * b), 0. repeat split; ring.
  Qed.
  Lemma add_s lc s : simulate (g_add F F lc) s = Some (lin_spec (fun w => w) lc, s).
  Proof. cbn [g_add simulate]. now rewrite direct_sum_ok. Qed.
  Lemma enf_s lc s : lin_spec (fun w => w) lc = 0 -> simulate (g_enforce F F lc) s = Some (tt, bump s 0 0 1).
  Proof.
    intros H. cbn [g_enforce simulate]. rewrite direct_sum_ok, H, feqb_refl. cbn [negb].
    unfold bump. now rewrite !Nat.add_0_r, Nat.add_1_r.
  Qed.
  Lemma enf_s_bad lc s : lin_spec (fun w => w) lc <> 0 -> simulate (g_enforce F F lc) s = None.
  Proof. intros H. cbn [g_enforce simulate]. rewrite direct_sum_ok. apply (feqb_false F) in H. now rewrite H. Qed.
  Lemma equal_s (a b : F) s : a = b -> simulate (g_equal F F a b) s = Some (tt, bump s 0 0 1).
  Proof. intros ->. apply enf_s. rewrite equal_spec. ring. Qed.
  Lemma equal_s_bad (a b : F) s : a <> b -> simulate (g_equal F F a b) s = None.
  Proof. intros H. apply enf_s_bad. rewrite equal_spec, fsub_eq_0. exact H. Qed.
  Lemma mul_s (a b c : F) s : a * b = c -> simulate (g_mul F F (Some (a, b, c))) s = Some (a, b, c, bump s 0 1 0).
  Proof.
    intros <-. unfold g_mul. cbn [lift1 option_map simulate]. rewrite feqb_refl. cbn [negb].
    rewrite (proj2 (feqb_true F (a * b * f0) 0)) by ring.
    cbn [negb]. unfold bump. now rewrite !Nat.add_0_r, Nat.add_1_r.
  Qed.
  Lemma mul_s_bad (a b c : F) s : a * b <> c -> simulate (g_mul F F (Some (a, b, c))) s = None.
  Proof. intros H. unfold g_mul. cbn [lift1 option_map simulate]. apply (feqb_false F) in H. now rewrite H. Qed.
  Lemma bump_bump s a g c a' g' c' : bump (bump s a g c) a' g' c' = bump s (a + a') (g + g') (c + c').
  Proof. unfold bump. cbn. f_equal; lia. Qed.
  Lemma bump_0 s : bump s 0 0 0 = s.
  Proof. destruct s. unfold bump. cbn. f_equal; lia. Qed.

  (** ** tactics *)
  Ltac lin := rewrite ?lin_spec_cons, ?lin_spec_nil;
    cbn [call_sum gains map lprod fold_right c_value]; unfold gains, lprod; cbn [map fold_right c_value].
  Ltac hinv := repeat (cbv beta iota in *; match goal with
    | H : holds (gbind _ _) _ |- _ => apply holds_bind in H; let x := fresh "x" in destruct H as (x & ? & H)
    | H : holds (g_mul _ _ _) _ |- _ => apply mul_w in H; destruct H as (? & ? & ->)
    | H : holds (g_equal _ _ _ _) _ |- _ => apply equal_w in H; destruct H as [? ->]
    | H : holds (g_add _ _ _) _ |- _ => apply add_w in H; subst
    | H : holds (g_enforce _ _ _) _ |- _ => apply enf_w in H; destruct H as [? ->]
    | H : holds (g_constant _ _ _ _) _ |- _ => apply add_w in H; subst
    | H : holds (GRet _) _ |- _ => cbn [holds] in H; subst
    end).
  Ltac hstep := apply holds_bind; eexists; split; [first [apply mul_w; do 2 eexists; reflexivity | apply add_w; reflexivity
     | apply equal_w; split; [|reflexivity] | apply enf_w; split; [|reflexivity] ] | cbv beta iota ].

  (** ** Element *)
  Lemma alloc_w r : holds (e_alloc F F None) r <-> exists v, r = wir v.
  Proof. cbn. split; intros (v & H); exists v; auto. Qed.
  Lemma alloc_s v s : simulate (e_alloc F F (Some v)) s = Some (hon v, bump s 1 0 0).
  Proof. cbn. unfold bump. now rewrite !Nat.add_0_r, Nat.add_1_r. Qed.
  Lemma e_mul_w (a b : F) r : holds (e_mul F F (wir a) (wir b)) r <-> r = wir (a * b).
  Proof.
    unfold e_mul. split.
    - intros H. hinv. cbn [ew wir] in *. now subst.
    - intros ->. hstep. hstep; [reflexivity|]. hstep; reflexivity.
  Qed.
  Lemma e_mul_s (a b : F) s : simulate (e_mul F F (hon a) (hon b)) s = Some (hon (a * b), bump s 0 1 2).
  Proof.
    unfold e_mul. cbn [hon ev ew lift2]. rewrite sim_bind, mul_s by reflexivity. rewrite sim_bind, equal_s by reflexivity.
    rewrite sim_bind, equal_s by reflexivity. cbn [simulate]. now rewrite !bump_bump.
  Qed.
  Lemma e_alloc_square_w r : holds (e_alloc_square F F None) r <-> exists v, r = (wir v, wir (v * v)).
  Proof.
    unfold e_alloc_square. split.
    - intros H. hinv. subst. eexists. reflexivity.
    - intros (v & ->). apply holds_bind. exists (v, v, v * v). split; [apply mul_w; eauto|].
      cbv beta iota. hstep; reflexivity.
  Qed.
  Lemma e_alloc_square_s v s : simulate (e_alloc_square F F (Some v)) s = Some (hon v, hon (v * v), bump s 0 1 1).
  Proof.
    unfold e_alloc_square. cbn [lift1 option_map]. rewrite sim_bind, mul_s by reflexivity. rewrite sim_bind, equal_s by reflexivity.
    cbn [simulate]. now rewrite !bump_bump.
  Qed.
  Lemma e_add_w (a b : F) r : holds (e_add F F (wir a) (wir b)) r <-> r = wir (a + b).
  Proof.
    assert (E : lin_spec (fun w : F => w) [LAdd a; LAdd b] = a + b) by (lin; ring).
    unfold e_add. cbn [wir ew ev lift2]. split.
    - intros H. hinv. now rewrite E.
    - intros ->. hstep. now rewrite E.
  Qed.
  Lemma e_add_s (a b : F) s : simulate (e_add F F (hon a) (hon b)) s = Some (hon (a + b), s).
  Proof.
    unfold e_add. cbn [hon ev ew lift2]. rewrite sim_bind, add_s. cbn [simulate].
    assert (E : lin_spec (fun w : F => w) [LAdd a; LAdd b] = a + b) by (lin; ring). now rewrite E.
  Qed.
  Lemma e_sub_w (a b : F) r : holds (e_sub F F (wir a) (wir b)) r <-> r = wir (a - b).
  Proof.
    unfold e_sub. cbn [wir ew ev lift2]. split.
    - intros H. hinv. now rewrite equal_spec.
    - intros ->. hstep. now rewrite equal_spec.
  Qed.
  Lemma e_sub_s (a b : F) s : simulate (e_sub F F (hon a) (hon b)) s = Some (hon (a - b), s).
  Proof. unfold e_sub. cbn [hon ev ew lift2]. rewrite sim_bind, add_s. cbn [simulate]. now rewrite equal_spec. Qed.
  Lemma c_scale (a : F) c : c_value (c_mul (CArb a) c) = a * c_value c.
  Proof. rewrite c_mul_ok. reflexivity. Qed.
  Lemma e_scale_w (a : F) c r : holds (e_scale F F (wir a) c) r <-> r = wir (a * c_value c).
  Proof.
    assert (E : lin_spec (fun w : F => w) [LTerm a c] = a * c_value c) by (lin; ring).
    unfold e_scale. cbn [wir ew ev lift1 option_map]. split.
    - intros H. hinv. now rewrite E.
    - intros ->. hstep. now rewrite E.
  Qed.
  Lemma e_scale_s (a : F) c s : simulate (e_scale F F (hon a) c) s = Some (hon (a * c_value c), s).
  Proof.
    assert (E : lin_spec (fun w : F => w) [LTerm a c] = a * c_value c) by (lin; ring).
    unfold e_scale. cbn [hon ev ew lift1 option_map]. rewrite sim_bind, add_s. cbn [simulate]. now rewrite E, c_scale.
  Qed.
  Lemma e_negate_w (a : F) r : holds (e_negate F F (wir a)) r <-> r = wir (- a).
  Proof. unfold e_negate. rewrite e_scale_w. cbn [c_value]. replace (a * - (1)) with (- a) by ring. reflexivity. Qed.
  Lemma e_negate_s (a : F) s : simulate (e_negate F F (hon a)) s = Some (hon (- a), s).
  Proof. unfold e_negate. rewrite e_scale_s. cbn [c_value]. replace (a * - (1)) with (- a) by ring. reflexivity. Qed.
  Lemma e_add_coeff_w (a b : F) c r : holds (e_add_coeff F F (wir a) (wir b) c) r <-> r = wir (a + b * c_value c).
  Proof.
    assert (E : lin_spec (fun w : F => w) [LAdd a; LTerm b c] = a + b * c_value c) by (lin; ring).
    unfold e_add_coeff. cbn [wir ew ev lift2]. split.
    - intros H. hinv. now rewrite E.
    - intros ->. hstep. now rewrite E.
  Qed.
  Lemma e_add_coeff_s (a b : F) c s : simulate (e_add_coeff F F (hon a) (hon b) c) s = Some (hon (a + b * c_value c), s).
  Proof.
    assert (E : lin_spec (fun w : F => w) [LAdd a; LTerm b c] = a + b * c_value c) by (lin; ring).
    unfold e_add_coeff. cbn [hon ev ew lift2]. rewrite sim_bind, add_s. cbn [simulate]. now rewrite E, c_scale.
  Qed.
  Lemma constant_spec (c : Coeff F) : lin_spec (fun w : F => w) [LTerm 1 c] = c_value c.
  Proof. lin. ring. Qed.
  Lemma e_zero_w r : holds (e_zero F F 1 false) r <-> r = wir 0.
  Proof.
    unfold e_zero. split.
    - intros H. hinv. now rewrite constant_spec.
    - intros ->. hstep. now rewrite constant_spec.
  Qed.
  Lemma e_zero_s s : simulate (e_zero F F 1 true) s = Some (hon 0, s).
  Proof. unfold e_zero, g_constant. rewrite sim_bind, add_s. cbn [simulate]. now rewrite constant_spec. Qed.
  Lemma e_constant_w v r : holds (e_constant F F 1 false v) r <-> r = wir v.
  Proof.
    unfold e_constant. split.
    - intros H. hinv. now rewrite constant_spec.
    - intros ->. hstep. now rewrite constant_spec.
  Qed.
  Lemma e_constant_s v s : simulate (e_constant F F 1 true v) s = Some (hon v, s).
  Proof. unfold e_constant, g_constant. rewrite sim_bind, add_s. cbn [simulate]. now rewrite constant_spec. Qed.
  Lemma e_one_w : e_one F F 1 false = wir 1.
  Proof. reflexivity. Qed.
  Lemma e_one_s : e_one F F 1 true = hon 1.
  Proof. reflexivity. Qed.
  Lemma e_enforce_zero_w (a : F) r : holds (e_enforce_zero F F (wir a)) r <-> a = 0 /\ r = tt.
  Proof.
    unfold e_enforce_zero. rewrite enf_w. cbn [wir ew].
    replace (lin_spec (fun w : F => w) [LAdd a]) with a by (lin; ring). reflexivity.
  Qed.
  Lemma e_enforce_zero_s (a : F) s :
    simulate (e_enforce_zero F F (hon a)) s = if feqb a 0 then Some (tt, bump s 0 0 1) else None.
  Proof.
    unfold e_enforce_zero. cbn [hon ew].
    assert (E : lin_spec (fun w : F => w) [LAdd a] = a) by (lin; ring).
    destruct (feqb a 0) eqn:H.
    - apply feqb_true in H. apply enf_s. now rewrite E.
    - apply feqb_false in H. apply enf_s_bad. now rewrite E.
  Qed.
  Lemma e_invert_with_w (a : F) r : holds (e_invert_with F F 1 (wir a) None) r <-> exists q, a * q = 1 /\ r = wir q.
  Proof.
    unfold e_invert_with. split.
    - intros H. hinv. cbn [ew wir] in *. subst. eauto.
    - intros (q & Hq & ->). apply holds_bind. exists (a, q, a * q). split; [apply mul_w; eauto|].
      cbv beta iota. hstep; [reflexivity|]. hstep; [exact Hq|]. reflexivity.
  Qed.
  Lemma e_invert_with_s (a q : F) s : simulate (e_invert_with F F 1 (hon a) (Some q)) s
    = if feqb (a * q) 1 then Some (hon q, bump s 0 1 2) else None.
  Proof.
    unfold e_invert_with. cbn [hon ev ew lift2]. rewrite sim_bind. destruct (feqb (a * q) 1) eqn:E.
    - apply feqb_true in E. rewrite mul_s by exact E. rewrite sim_bind, equal_s by reflexivity.
      rewrite sim_bind, equal_s by reflexivity. cbn [simulate]. now rewrite !bump_bump.
    - apply feqb_false in E. now rewrite mul_s_bad.
  Qed.
  Lemma e_invert_w (a : F) r : holds (e_invert F F 1 (wir a)) r <-> a <> 0 /\ r = wir (finv a).
  Proof.
    unfold e_invert. cbn [try_just wir ev gbind]. rewrite e_invert_with_w. split.
    - intros (q & Hq & ->). assert (Ha : a <> 0).
      { intros ->. apply (f1_neq_0 F). rewrite <- Hq. ring. }
      split; auto. f_equal. transitivity (finv a * (a * q)); [field; exact Ha|]. rewrite Hq. ring.
    - intros [Ha ->]. exists (finv a). split; auto. field. exact Ha.
  Qed.
  Lemma e_invert_s (a : F) s : simulate (e_invert F F 1 (hon a)) s
    = if feqb a 0 then None else Some (hon (finv a), bump s 0 1 2).
  Proof.
    unfold e_invert. cbn [try_just hon ev]. unfold inv_opt. destruct (feqb a 0) eqn:E; [reflexivity|].
    apply feqb_false in E. cbn [gbind]. change (mk_elem F F a (Some a)) with (hon a). rewrite e_invert_with_s.
    now rewrite (proj2 (feqb_true F (a * finv a) 1)) by (field; exact E).
  Qed.
  Lemma e_div_w (a b : F) r : holds (e_div_nonzero F F (wir a) (wir b)) r <-> exists q, q * b = a /\ r = wir q.
  Proof.
    unfold e_div_nonzero. cbn [try_just wir ev lift2 gbind]. split.
    - intros H. hinv. cbn [ew wir] in *. subst. eauto.
    - intros (q & Hq & ->). apply holds_bind. exists (q, b, q * b). split; [apply mul_w; eauto|].
      cbv beta iota. hstep; [cbn; congruence|]. hstep; reflexivity.
  Qed.
  Lemma e_div_s (a b : F) s : simulate (e_div_nonzero F F (hon a) (hon b)) s
    = if feqb b 0 then None else Some (hon (a * finv b), bump s 0 1 2).
  Proof.
    unfold e_div_nonzero. cbn [try_just hon ev lift2 fst snd]. unfold inv_opt. destruct (feqb b 0) eqn:E; [reflexivity|].
    apply feqb_false in E. cbn [option_map gbind]. rewrite sim_bind, mul_s by (field; exact E).
    cbn [ew]. rewrite sim_bind, equal_s by reflexivity.
    rewrite sim_bind, equal_s by reflexivity. cbn [simulate]. now rewrite !bump_bump.
  Qed.

  Lemma sim_eq {A : Type} (x : A) s a g c a' g' c' : a = a' -> g = g' -> c = c' ->
    Some (x, bump s a g c) = Some (x, bump s a' g' c').
  Proof. now intros -> -> ->. Qed.
  Lemma lsum_nil : lsum ([] : list F) = 0. Proof. reflexivity. Qed.
  Lemma lsum_cons (a : F) l : lsum (a :: l) = a + lsum l. Proof. reflexivity. Qed.
  (** ** the same rules in front of a continuation *)
  Lemma e_mul_bw (a b : F) {B : Type} (f : elem F F -> G F F B) r :
    holds (gbind (e_mul F F (wir a) (wir b)) f) r <-> holds (f (wir (a * b))) r.
  Proof. apply holds_det. intros y. apply e_mul_w. Qed.
  Lemma e_add_bw (a b : F) {B : Type} (f : elem F F -> G F F B) r :
    holds (gbind (e_add F F (wir a) (wir b)) f) r <-> holds (f (wir (a + b))) r.
  Proof. apply holds_det. intros y. apply e_add_w. Qed.
  Lemma e_sub_bw (a b : F) {B : Type} (f : elem F F -> G F F B) r :
    holds (gbind (e_sub F F (wir a) (wir b)) f) r <-> holds (f (wir (a - b))) r.
  Proof. apply holds_det. intros y. apply e_sub_w. Qed.
  Lemma e_scale_bw (a : F) c {B : Type} (f : elem F F -> G F F B) r :
    holds (gbind (e_scale F F (wir a) c) f) r <-> holds (f (wir (a * c_value c))) r.
  Proof. apply holds_det. intros y. apply e_scale_w. Qed.
  Lemma e_add_coeff_bw (a b : F) c {B : Type} (f : elem F F -> G F F B) r :
    holds (gbind (e_add_coeff F F (wir a) (wir b) c) f) r <-> holds (f (wir (a + b * c_value c))) r.
  Proof. apply holds_det. intros y. apply e_add_coeff_w. Qed.
  Lemma e_negate_bw (a : F) {B : Type} (f : elem F F -> G F F B) r :
    holds (gbind (e_negate F F (wir a)) f) r <-> holds (f (wir (- a))) r.
  Proof. apply holds_det. intros y. apply e_negate_w. Qed.
  Lemma e_zero_bw  {B : Type} (f : elem F F -> G F F B) r :
    holds (gbind (e_zero F F 1 false) f) r <-> holds (f (wir 0)) r.
  Proof. apply holds_det. intros y. apply e_zero_w. Qed.
  Lemma e_constant_bw v {B : Type} (f : elem F F -> G F F B) r :
    holds (gbind (e_constant F F 1 false v) f) r <-> holds (f (wir v)) r.
  Proof. apply holds_det. intros y. apply e_constant_w. Qed.
  Lemma e_div_bw (a b : F) {B : Type} (f : elem F F -> G F F B) r :
    holds (gbind (e_div_nonzero F F (wir a) (wir b)) f) r <-> exists q, q * b = a /\ holds (f (wir q)) r.
  Proof.
    rewrite holds_bind. split.
    - intros (x & Hx & H). apply e_div_w in Hx. destruct Hx as (q & Hq & ->). eauto.
    - intros (q & Hq & H). exists (wir q). split; auto. apply e_div_w. eauto.
  Qed.
  Lemma e_alloc_square_bw {B : Type} (f : elem F F * elem F F -> G F F B) r :
    holds (gbind (e_alloc_square F F None) f) r <-> exists v, holds (f (wir v, wir (v * v))) r.
  Proof.
    rewrite holds_bind. split.
    - intros (x & Hx & H). apply e_alloc_square_w in Hx. destruct Hx as (v & ->). eauto.
    - intros (v & H). exists (wir v, wir (v * v)). split; auto. apply e_alloc_square_w. eauto.
  Qed.
  Lemma enf_bw lc {B : Type} (f : unit -> G F F B) r :
    holds (gbind (g_enforce F F lc) f) r <-> lin_spec (fun w => w) lc = 0 /\ holds (f tt) r.
  Proof.
    rewrite holds_bind. split.
    - intros (x & Hx & H). apply enf_w in Hx. destruct Hx as [E ->]. auto.
    - intros [E H]. exists tt. split; auto. apply enf_w. auto.
  Qed.
  Lemma mul_bw w {B : Type} (f : F * F * F -> G F F B) r :
    holds (gbind (g_mul F F w) f) r <-> exists a b, holds (f (a, b, a * b)) r.
  Proof.
    rewrite holds_bind. split.
    - intros (x & Hx & H). apply mul_w in Hx. destruct Hx as (a & b & ->). eauto.
    - intros (a & b & H). eexists. split; [apply mul_w; eauto|exact H].
  Qed.
  Lemma equal_bw (a b : F) {B : Type} (f : unit -> G F F B) r :
    holds (gbind (g_equal F F a b) f) r <-> a = b /\ holds (f tt) r.
  Proof.
    rewrite holds_bind. split.
    - intros (x & Hx & H). apply equal_w in Hx. destruct Hx as [E ->]. auto.
    - intros [E H]. exists tt. split; auto. apply equal_w. auto.
  Qed.
  Lemma ret_w {A : Type} (a r : A) : holds (GRet (F := F) a) r <-> r = a.
  Proof. cbn. split; auto. Qed.
  (** run through deterministic steps *)
  Ltac hw := repeat (rewrite ?e_mul_bw, ?e_add_bw, ?e_sub_bw, ?e_scale_bw, ?e_add_coeff_bw, ?e_negate_bw, ?e_zero_bw,
    ?e_constant_bw; cbv beta iota; cbn [fst snd px py pwir]).
  Ltac sw := repeat (rewrite sim_bind; rewrite ?e_mul_s, ?e_add_s, ?e_sub_s, ?e_scale_s, ?e_add_coeff_s, ?e_negate_s,
    ?e_zero_s, ?e_constant_s, ?e_alloc_square_s; cbv beta iota; cbn [fst snd px py phon]).

  Lemma e_square_w (a : F) r : holds (e_square F F (wir a)) r <-> r = wir (a * a).
  Proof. apply e_mul_w. Qed.
  Lemma e_double_w (a : F) r : holds (e_double F F (wir a)) r <-> r = wir (a + a).
  Proof. apply e_add_w. Qed.

  (** ** folds and sums *)
  Definition horner_val (acc s : F) (es : list F) : F := fold_left (fun acc e => acc * s + e) es acc.
  Lemma horner_val_peval es : forall acc s, horner_val acc s es = peval (rev (acc :: es)) s.
  Proof.
    induction es as [|e es IH]; intros acc s; cbn [horner_val fold_left].
    - cbn. ring.
    - change (horner_val (acc * s + e) s es = peval (rev (acc :: e :: es)) s).
      rewrite IH. cbn [rev]. rewrite <- !app_assoc. rewrite !peval_app. cbn [app peval length]. rewrite fpow_1. ring.
  Qed.
  Lemma e_fold_go_w es : forall (acc s : F) r,
    holds (e_fold_go F F (wir acc) (map wir es) (wir s)) r <-> r = wir (horner_val acc s es).
  Proof.
    induction es as [|e es IH]; intros acc s r; cbn [map e_fold_go horner_val fold_left].
    - apply ret_w.
    - hw. apply IH.
  Qed.
  Lemma e_fold_go_s es : forall (acc s : F) st,
    simulate (e_fold_go F F (hon acc) (map hon es) (hon s)) st
    = Some (hon (horner_val acc s es), bump st 0 (length es) (2 * length es)).
  Proof.
    induction es as [|e es IH]; intros acc s st; cbn [map e_fold_go horner_val fold_left].
    - cbn. now rewrite bump_0.
    - sw. rewrite IH, bump_bump. cbn [length]. (apply sim_eq; lia).
  Qed.
  Lemma e_fold_w es (s : F) r : holds (e_fold F F 1 false (map wir es) (wir s)) r <-> r = wir (peval (rev es) s).
  Proof.
    destruct es as [|e es]; cbn [map e_fold].
    - apply e_zero_w.
    - rewrite e_fold_go_w, horner_val_peval. reflexivity.
  Qed.
  Lemma e_fold_s es (s : F) st : simulate (e_fold F F 1 true (map hon es) (hon s)) st
    = Some (hon (peval (rev es) s), bump st 0 (length es - 1) (2 * (length es - 1))).
  Proof.
    destruct es as [|e es]; cbn [map e_fold].
    - rewrite e_zero_s. cbn. now rewrite bump_0.
    - rewrite e_fold_go_s, horner_val_peval. cbn [length]. now rewrite Nat.sub_succ, Nat.sub_0_r.
  Qed.
  Lemma e_sum_go_w es : forall (acc : F) r, holds (e_sum_go F F (wir acc) (map wir es)) r <-> r = wir (acc + lsum es).
  Proof.
    induction es as [|e es IH]; intros acc r; cbn [map e_sum_go].
    - rewrite ret_w. replace (acc + lsum []) with acc by (rewrite lsum_nil; ring). reflexivity.
    - hw. rewrite IH. replace (acc + e + lsum es) with (acc + lsum (e :: es)) by (rewrite lsum_cons; ring). reflexivity.
  Qed.
  Lemma e_sum_go_s es : forall (acc : F) st, simulate (e_sum_go F F (hon acc) (map hon es)) st = Some (hon (acc + lsum es), st).
  Proof.
    induction es as [|e es IH]; intros acc st; cbn [map e_sum_go].
    - cbn [simulate]. replace (acc + lsum []) with acc by (rewrite lsum_nil; ring). reflexivity.
    - sw. rewrite IH. replace (acc + e + lsum es) with (acc + lsum (e :: es)) by (rewrite lsum_cons; ring). reflexivity.
  Qed.
  Lemma e_sum_w es r : holds (e_sum F F 1 false (map wir es)) r <-> r = wir (lsum es).
  Proof. unfold e_sum. hw. rewrite e_sum_go_w. replace (0 + lsum es) with (lsum es) by ring. reflexivity. Qed.
  Lemma e_sum_s es st : simulate (e_sum F F 1 true (map hon es)) st = Some (hon (lsum es), st).
  Proof. unfold e_sum. sw. rewrite e_sum_go_s. replace (0 + lsum es) with (lsum es) by ring. reflexivity. Qed.
  Lemma e_squarings_w k : forall (a : F) r, holds (e_squarings F F k (wir a)) r <-> r = wir (a ^ (2 ^ k)).
  Proof.
    induction k as [|k IH]; intros a r; cbn [e_squarings].
    - rewrite ret_w. cbn. replace (a * 1) with a by ring. reflexivity.
    - unfold e_square. hw. rewrite IH. replace ((a * a) ^ (2 ^ k)) with (a ^ (2 ^ S k)); [reflexivity|].
      rewrite fpow_mul_base, fpow_sq, Nat.pow_succ_r'. reflexivity.
  Qed.
  Lemma e_squarings_s k : forall (a : F) st, simulate (e_squarings F F k (hon a)) st = Some (hon (a ^ (2 ^ k)), bump st 0 k (2 * k)).
  Proof.
    induction k as [|k IH]; intros a st; cbn [e_squarings].
    - cbn [simulate]. rewrite bump_0. cbn. replace (a * 1) with a by ring. reflexivity.
    - unfold e_square. sw. rewrite IH, bump_bump. replace ((a * a) ^ (2 ^ k)) with (a ^ (2 ^ S k)).
      + (apply sim_eq; lia).
      + rewrite fpow_mul_base, fpow_sq, Nat.pow_succ_r'. reflexivity.
  Qed.
  Lemma e_root_w k (a : F) r : holds (e_root_of_unity F F 1 false (wir a) k) r <-> a ^ (2 ^ k) = 1 /\ r = tt.
  Proof.
    unfold e_root_of_unity. rewrite (holds_det _ _ _ _ (e_squarings_w k a)). rewrite e_one_w. hw.
    rewrite e_enforce_zero_w, fsub_eq_0. reflexivity.
  Qed.
  Lemma e_root_s k (a : F) st : simulate (e_root_of_unity F F 1 true (hon a) k) st
    = if feqb (a ^ (2 ^ k)) 1 then Some (tt, bump st 0 k (2 * k + 1)) else None.
  Proof.
    unfold e_root_of_unity. rewrite sim_bind, e_squarings_s. rewrite e_one_s. sw. rewrite e_enforce_zero_s.
    destruct (feqb (a ^ (2 ^ k)) 1) eqn:E.
    - apply feqb_true in E. rewrite E. rewrite (proj2 (feqb_true F (1 - 1) 0)) by ring. rewrite bump_bump.
      (apply sim_eq; lia).
    - apply feqb_false in E. rewrite (proj2 (feqb_false F (a ^ (2 ^ k) - 1) 0)); auto. now rewrite fsub_eq_0.
  Qed.
  Lemma multiadd_spec (vs cs : list F) :
    lin_spec (fun w : F => w) (map (fun vc => LTerm (fst vc) (CArb (snd vc))) (combine vs cs))
    = lsum (map (fun vc => fst vc * snd vc) (combine vs cs)).
  Proof.
    induction (combine vs cs) as [|[v c] l IH]; cbn [map]; [reflexivity|].
    lin. rewrite IH, lsum_cons. cbn [fst snd c_value]. ring.
  Qed.
  Lemma combine_map_l {A B C : Type} (f : A -> B) : forall (l : list A) (m : list C),
    combine (map f l) m = map (fun p => (f (fst p), snd p)) (combine l m).
  Proof. induction l as [|a l IH]; intros [|c m]; cbn; auto. now rewrite IH. Qed.
  Lemma e_multiadd_w vs cs r : length vs = length cs ->
    (holds (e_multiadd F F false (map wir vs) cs) r <-> r = wir (lsum (map (fun vc => fst vc * snd vc) (combine vs cs)))).
  Proof.
    intros Hl. unfold e_multiadd. rewrite map_length, Hl, Nat.eqb_refl.
    assert (V : forall l : list (elem F F * F), fold_left (fun s vc => lift2 (fun s v => fadd s (fmul v (snd vc))) s (ev F F (fst vc))) l None = None).
    { induction l; cbn; auto. }
    rewrite V, combine_map_l, map_map. cbn [fst snd ew wir].
    rewrite <- multiadd_spec. split.
    - intros H. hinv. reflexivity.
    - intros ->. hstep. reflexivity.
  Qed.
  Lemma e_multiadd_s vs cs st : length vs = length cs ->
    simulate (e_multiadd F F true (map hon vs) cs) st = Some (hon (lsum (map (fun vc => fst vc * snd vc) (combine vs cs))), st).
  Proof.
    intros Hl. unfold e_multiadd. rewrite map_length, Hl, Nat.eqb_refl.
    rewrite sim_bind, add_s. cbn [simulate].
    rewrite combine_map_l, map_map. cbn [fst snd ew hon]. rewrite multiadd_spec.
    assert (V : forall (l : list (F * F)) a, fold_left (fun s vc => lift2 (fun s v => fadd s (fmul v (snd vc))) s (ev F F (fst vc)))
                 (map (fun p => (hon (fst p), snd p)) l) (Some a) = Some (a + lsum (map (fun vc => fst vc * snd vc) l))).
    { induction l as [|[v c] l IH]; intros a; cbn [map fold_left].
      - rewrite lsum_nil. f_equal. ring.
      - cbn [fst snd hon ev lift2]. rewrite IH, lsum_cons. cbn [fst snd]. f_equal. ring. }
    rewrite V. set (t := lsum _). replace (0 + t) with t by ring. reflexivity.
  Qed.

  (** ** Boolean *)
  Lemma fe_idem (a : F) : a * a = a <-> exists b, a = fe F b.
  Proof.
    split.
    - intros H. destruct (feq_dec F a 0) as [->|N]; [exists false; reflexivity|].
      exists true. cbn. apply (fmul_cancel_l F a); auto. rewrite H. ring.
    - intros ([] & ->); cbn; ring.
  Qed.
  Lemma b_alloc_w r : holds (b_alloc F F None) r <-> exists b, r = bwir (fe F b).
  Proof.
    unfold b_alloc. cbn [lift1 option_map]. split.
    - rewrite mul_bw. intros (x & y & H). cbv beta iota in H. rewrite !equal_bw, ret_w in H.
      destruct H as (E1 & E2 & ->). subst y. rewrite <- E2. apply eq_sym, fe_idem in E2.
      destruct E2 as (b & ->). exists b. reflexivity.
    - intros (b & ->). apply holds_bind. exists (fe F b, fe F b, fe F b * fe F b). split.
      + apply mul_w. eauto.
      + assert (E : fe F b * fe F b = fe F b) by (apply fe_idem; eauto).
        hstep. reflexivity. hstep. now rewrite E. rewrite E. reflexivity.
  Qed.
  Lemma b_alloc_s b s : simulate (b_alloc F F (Some b)) s = Some (bhon b, bump s 0 1 2).
  Proof.
    unfold b_alloc. cbn [lift1 option_map]. rewrite sim_bind, mul_s by (destruct b; cbn; ring).
    cbv beta iota. rewrite sim_bind, equal_s by reflexivity. rewrite sim_bind, equal_s by reflexivity.
    cbn [simulate]. now rewrite !bump_bump.
  Qed.
  Lemma b_not_w (a : F) r : holds (b_not F F 1 (bwir a)) r <-> r = bwir (1 - a).
  Proof.
    unfold b_not. split.
    - intros H. hinv. unfold bwir. f_equal. lin. cbn. ring.
    - intros ->. hstep. cbn. unfold bwir. f_equal. lin. ring.
  Qed.
  Lemma b_not_s b s : simulate (b_not F F 1 (bhon b)) s = Some (bhon (negb b), s).
  Proof.
    unfold b_not. rewrite sim_bind, add_s. cbn [simulate bhon bv lift1 option_map bw]. unfold bhon.
    do 3 f_equal. lin. destruct b; cbn; ring.
  Qed.
  Lemma b_and_w (a b : F) r : holds (b_and F F (bwir a) (bwir b)) r <-> r = bwir (a * b).
  Proof.
    unfold b_and. cbn [bwir bv lift2]. split.
    - intros H. hinv. subst. reflexivity.
    - intros ->. hstep. hstep. reflexivity. hstep. reflexivity. reflexivity.
  Qed.
  Lemma b_and_s a b s : simulate (b_and F F (bhon a) (bhon b)) s = Some (bhon (andb a b), bump s 0 1 2).
  Proof.
    unfold b_and. cbn [bhon bv lift2 bw]. rewrite sim_bind, mul_s by (destruct a, b; cbn; ring).
    cbv beta iota. rewrite sim_bind, equal_s by reflexivity. rewrite sim_bind, equal_s by reflexivity.
    cbn [simulate]. now rewrite !bump_bump.
  Qed.
  Lemma b_elem_w (a : F) : b_elem F F (bwir a) = wir a. Proof. reflexivity. Qed.
  Lemma b_elem_s b : b_elem F F (bhon b) = hon (fe F b). Proof. reflexivity. Qed.
  Lemma b_select_w (c a b : F) r : holds (b_select F F (bwir c) (wir a) (wir b)) r <-> r = wir (a + c * (b - a)).
  Proof. unfold b_select. rewrite b_elem_w. hw. apply e_add_w. Qed.
  Lemma select_val c (a b : F) : a + fe F c * (b - a) = if c then b else a.
  Proof. destruct c; cbn; ring. Qed.
  Lemma b_select_s c (a b : F) s : simulate (b_select F F (bhon c) (hon a) (hon b)) s
    = Some (hon (if c then b else a), bump s 0 1 2).
  Proof. unfold b_select. rewrite b_elem_s. sw. now rewrite ?e_add_s, select_val. Qed.
  Lemma b_cond_equal_w (c a b : F) r :
    holds (b_cond_equal F F (bwir c) (wir a) (wir b)) r <-> c * (a - b) = 0 /\ r = tt.
  Proof. unfold b_cond_equal. rewrite b_elem_w. hw. apply e_enforce_zero_w. Qed.
  Lemma b_cond_equal_s c (a b : F) s : simulate (b_cond_equal F F (bhon c) (hon a) (hon b)) s
    = if implb c (feqb a b) then Some (tt, bump s 0 1 3) else None.
  Proof.
    unfold b_cond_equal. rewrite b_elem_s. sw. rewrite e_enforce_zero_s, bump_bump.
    destruct c; cbn [fe implb].
    - destruct (feqb a b) eqn:E.
      + apply feqb_true in E. subst. rewrite (proj2 (feqb_true F (1 * (b - b)) 0)) by ring. reflexivity.
      + apply feqb_false in E. rewrite (proj2 (feqb_false F (1 * (a - b)) 0)); auto.
        intros H. apply E. apply fsub_eq_0. rewrite <- H. ring.
    - rewrite (proj2 (feqb_true F (0 * (a - b)) 0)) by ring. reflexivity.
  Qed.
  Lemma e_is_zero_w (a : F) r : holds (e_is_zero F F 1 (wir a)) r <-> r = bwir (fe F (feqb a 0)).
  Proof.
    unfold e_is_zero. cbn [wir ev ew lift1 lift2 option_map]. split.
    - rewrite mul_bw. intros (x & z & H). cbv beta iota in H. rewrite equal_bw, enf_bw, mul_bw in H.
      destruct H as (-> & E1 & y & i & H). cbv beta iota in H. rewrite equal_bw, enf_bw, ret_w in H.
      destruct H as (-> & E2 & ->). revert E1 E2. lin. intros E1 E2. unfold bwir. f_equal.
      destruct (feqb a 0) eqn:E; cbn [fe].
      + apply feqb_true in E. subst a. apply fsub_eq_0. rewrite <- E2. ring.
      + apply feqb_false in E. apply (fmul_cancel_l F a); auto.
        transitivity (0 : F); [|ring]. rewrite <- E1. ring.
    - intros ->. apply holds_bind. exists (a, fe F (feqb a 0), a * fe F (feqb a 0)). split; [apply mul_w; eauto|].
      cbv beta iota. hstep. reflexivity. hstep.
      { lin. destruct (feqb a 0) eqn:E; cbn [fe]; [apply feqb_true in E; subst|]; ring. }
      apply holds_bind. exists (a, (if feqb a 0 then 0 else finv a), a * (if feqb a 0 then 0 else finv a)).
      split; [apply mul_w; eauto|]. cbv beta iota. hstep. reflexivity. hstep.
      { lin. destruct (feqb a 0) eqn:E; cbn [fe]; [ring|]. apply feqb_false in E. field. exact E. }
      reflexivity.
  Qed.
  Lemma e_is_zero_s (a : F) s : simulate (e_is_zero F F 1 (hon a)) s = Some (bhon (feqb a 0), bump s 0 2 4).
  Proof.
    unfold e_is_zero. cbn [hon ev ew lift1 lift2 option_map].
    assert (E : a * fe F (feqb a 0) = 0).
    { destruct (feqb a 0) eqn:E; cbn [fe]; [apply feqb_true in E; subst|]; ring. }
    assert (E2 : a * (if feqb a 0 then 0 else finv a) = fe F (negb (feqb a 0))).
    { destruct (feqb a 0) eqn:K; cbn [fe negb]; [ring|]. apply feqb_false in K. field. exact K. }
    rewrite sim_bind, mul_s by exact E. cbv beta iota. rewrite sim_bind, equal_s by reflexivity.
    rewrite sim_bind, enf_s by (lin; ring). rewrite sim_bind, mul_s by exact E2. cbv beta iota.
    rewrite sim_bind, equal_s by reflexivity. rewrite sim_bind, enf_s.
    - cbn [simulate]. now rewrite !bump_bump.
    - lin. destruct (feqb a 0); cbn [fe negb]; ring.
  Qed.
  Lemma e_is_equal_w (a b : F) r : holds (e_is_equal F F 1 (wir a) (wir b)) r <-> r = bwir (fe F (feqb a b)).
  Proof.
    unfold e_is_equal. hw. rewrite e_is_zero_w. replace (feqb (a - b) 0) with (feqb a b); [reflexivity|].
    destruct (feqb a b) eqn:E; symmetry.
    - apply feqb_true in E. subst. apply feqb_true. ring.
    - apply feqb_false in E. apply feqb_false. now rewrite fsub_eq_0.
  Qed.
  Lemma e_is_equal_s (a b : F) s : simulate (e_is_equal F F 1 (hon a) (hon b)) s = Some (bhon (feqb a b), bump s 0 2 4).
  Proof.
    unfold e_is_equal. sw. rewrite e_is_zero_s. replace (feqb (a - b) 0) with (feqb a b); [reflexivity|].
    destruct (feqb a b) eqn:E; symmetry.
    - apply feqb_true in E. subst. apply feqb_true. ring.
    - apply feqb_false in E. apply feqb_false. now rewrite fsub_eq_0.
  Qed.

  (** multipack *)
  Lemma pack_lc_spec (bits : list (bool_g F)) :
    lin_spec (fun w : F => w) (pack_lc F F bits) = peval (map (bw F) bits) (1 + 1).
  Proof.
    unfold pack_lc. induction bits as [|b bits IH]; [reflexivity|].
    cbn [flat_map app map peval]. rewrite !lin_spec_cons, IH. cbn [call_sum].
    unfold gains, lprod; cbn [map fold_right c_value]. unfold dbl. ring.
  Qed.
  Lemma pack_value_none (bits : list (bool_g F)) g : pack_value F F bits None g = None.
  Proof. revert g. induction bits as [|b bits IH]; intros g; cbn [pack_value]; auto. Qed.
  Lemma pack_value_hon bits : forall v g : F,
    pack_value F F (map bhon bits) (Some v) (Some g) = Some (v + g * peval (map (fe F) bits) (1 + 1)).
  Proof.
    induction bits as [|b bits IH]; intros v g; cbn [map pack_value peval].
    - f_equal. ring.
    - cbn [bhon bv lift1 option_map]. rewrite IH. f_equal. destruct b; cbn [fe]; ring.
  Qed.
  Lemma b_pack_w bits r : holds (b_pack F F false (map bwir bits)) r <-> r = wir (peval bits (1 + 1)).
  Proof.
    unfold b_pack. rewrite pack_value_none. rewrite (holds_det _ _ _ _ (fun y => add_w _ y)).
    rewrite pack_lc_spec, map_map. cbn [bw bwir]. rewrite map_id. apply ret_w.
  Qed.
  Lemma b_pack_s bits s : simulate (b_pack F F true (map bhon bits)) s = Some (hon (peval (map (fe F) bits) (1 + 1)), s).
  Proof.
    unfold b_pack. rewrite pack_value_hon, sim_bind, add_s, pack_lc_spec, map_map. cbn [bhon bw simulate].
    set (t := peval _ _). replace (0 + 1 * t) with t by ring. reflexivity.
  Qed.
  Lemma nth_skipn_g {A : Type} (l : list A) n i d : nth i (skipn n l) d = nth (n + i) l d.
  Proof. revert l. induction n as [|n IH]; intros [|a l]; cbn; auto. destruct i; auto. Qed.
  Definition npacks (len cap : nat) : nat := (len + cap - 1) / cap.
  Definition pack_at (cap : nat) (bits : list F) (j : nat) : F :=
    fsum cap (fun i => nth (j * cap + i) bits 0 * (1 + 1) ^ i).
  Lemma pack_first cap bits : peval (firstn cap bits) (1 + 1) = pack_at cap bits 0.
  Proof.
    unfold pack_at. rewrite peval_fsum, firstn_length. cbn [Nat.mul Nat.add].
    rewrite <- (fsum_extend F (Nat.min cap (length bits)) cap (fun i => nth i (firstn cap bits) 0 * (1 + 1) ^ i)).
    - apply fsum_ext. intros i Hi. f_equal. rewrite <- (firstn_skipn cap bits) at 2.
      destruct (Nat.lt_ge_cases i (length (firstn cap bits))).
      + now rewrite app_nth1.
      + rewrite nth_overflow by auto. rewrite firstn_length in H. symmetry. apply nth_overflow.
        rewrite firstn_skipn. lia.
    - lia.
    - intros i Hi. rewrite nth_overflow; [ring|]. rewrite firstn_length. lia.
  Qed.
  Lemma pack_next cap bits j : pack_at cap (skipn cap bits) j = pack_at cap bits (S j).
  Proof.
    unfold pack_at. apply fsum_ext. intros i _. f_equal.
    rewrite nth_skipn_g. f_equal. lia.
  Qed.
  Lemma npacks_0 cap : (0 < cap)%nat -> npacks 0 cap = 0%nat.
  Proof. intros H. unfold npacks. apply Nat.div_small. lia. Qed.
  Lemma npacks_S len cap : (0 < cap)%nat -> (0 < len)%nat -> npacks len cap = S (npacks (len - cap) cap).
  Proof.
    intros H L. unfold npacks. destruct (Nat.le_gt_cases cap len).
    - replace (len + cap - 1)%nat with ((len - cap + cap - 1) + 1 * cap)%nat by lia.
      rewrite Nat.div_add by lia. lia.
    - replace (len - cap)%nat with 0%nat by lia.
      replace ((0 + cap - 1) / cap)%nat with 0%nat by (symmetry; apply Nat.div_small; lia).
      replace (len + cap - 1)%nat with ((len - 1) + 1 * cap)%nat by lia.
      rewrite Nat.div_add by lia. rewrite Nat.div_small by lia. reflexivity.
  Qed.
  Lemma packs_step cap (bits : list F) : (0 < cap)%nat -> (0 < length bits)%nat ->
    map (pack_at cap bits) (seq 0 (npacks (length bits) cap))
    = peval (firstn cap bits) (1 + 1)
      :: map (pack_at cap (skipn cap bits)) (seq 0 (npacks (length (skipn cap bits)) cap)).
  Proof.
    intros C L. rewrite npacks_S by auto. cbn [seq map]. f_equal.
    - symmetry. apply pack_first.
    - rewrite <- seq_shift, map_map, skipn_length. apply map_ext. intros j. symmetry. apply pack_next.
  Qed.
  Lemma multipack_go_w cap : (0 < cap)%nat -> forall fuel bits r, (length bits <= fuel)%nat ->
    (holds (b_multipack_go F F fuel false cap (map bwir bits)) r
     <-> r = map wir (map (pack_at cap bits) (seq 0 (npacks (length bits) cap)))).
  Proof.
    intros C. induction fuel as [|fuel IH]; intros bits r L.
    - destruct bits; [|cbn in L; lia]. cbn [map b_multipack_go]. rewrite npacks_0 by auto. apply ret_w.
    - destruct bits as [|b bits].
      + cbn [map b_multipack_go]. rewrite npacks_0 by auto. apply ret_w.
      + rewrite packs_step; [|auto|cbn [length]; lia].
        set (l := b :: bits) in *. assert (E : map bwir l = bwir b :: map bwir bits) by reflexivity.
        rewrite E. cbn [b_multipack_go]. rewrite <- E.
        rewrite firstn_map, skipn_map.
        rewrite (holds_det _ _ _ _ (fun y => b_pack_w (firstn cap l) y)).
        assert (K : (length (skipn cap l) <= fuel)%nat) by (rewrite skipn_length; cbn [length l] in *; lia).
        rewrite (holds_det _ _ _ _ (fun y => IH (skipn cap l) y K)). apply ret_w.
  Qed.
  Lemma multipack_w cap bits r : (0 < cap)%nat ->
    (holds (b_multipack F F false cap (map bwir bits)) r
     <-> r = map wir (map (pack_at cap bits) (seq 0 (npacks (length bits) cap)))).
  Proof.
    intros C. unfold b_multipack. rewrite (proj2 (Nat.eqb_neq cap 0)) by lia.
    rewrite map_length. apply multipack_go_w; auto.
  Qed.
  Lemma multipack_go_s cap : (0 < cap)%nat -> forall fuel bits s, (length bits <= fuel)%nat ->
    simulate (b_multipack_go F F fuel true cap (map bhon bits)) s
    = Some (map hon (map (pack_at cap (map (fe F) bits)) (seq 0 (npacks (length bits) cap))), s).
  Proof.
    intros C. induction fuel as [|fuel IH]; intros bits s L.
    - destruct bits; [|cbn in L; lia]. cbn [map b_multipack_go]. rewrite npacks_0 by auto. reflexivity.
    - destruct bits as [|b bits].
      + cbn [map b_multipack_go]. rewrite npacks_0 by auto. reflexivity.
      + rewrite <- (map_length (fe F) (b :: bits)). rewrite packs_step; [|auto|cbn [length map]; lia].
        set (l := b :: bits) in *. assert (E : map bhon l = @bhon F b :: map bhon bits) by reflexivity.
        rewrite E. cbn [b_multipack_go]. rewrite <- E.
        rewrite !firstn_map, !skipn_map, sim_bind, b_pack_s, sim_bind.
        rewrite IH by (rewrite skipn_length; cbn [length l] in *; lia).
        cbn [simulate]. rewrite map_length. reflexivity.
  Qed.
  Lemma multipack_s cap bits s : (0 < cap)%nat ->
    simulate (b_multipack F F true cap (map bhon bits)) s
    = Some (map hon (map (pack_at cap (map (fe F) bits)) (seq 0 (npacks (length bits) cap))), s).
  Proof.
    intros C. unfold b_multipack. rewrite (proj2 (Nat.eqb_neq cap 0)) by lia.
    rewrite map_length. apply multipack_go_s; auto.
  Qed.
End GP.

(** the tactics again, for the following files *)
Ltac lin := rewrite ?lin_spec_cons, ?lin_spec_nil;
  cbn [call_sum gains map lprod fold_right c_value]; unfold gains, lprod; cbn [map fold_right c_value].
Ltac hw := repeat (rewrite ?e_mul_bw, ?e_add_bw, ?e_sub_bw, ?e_scale_bw, ?e_add_coeff_bw, ?e_negate_bw, ?e_zero_bw,
  ?e_constant_bw; cbv beta iota; cbn [fst snd px py pwir]).
Ltac sw := cbn [fst snd px py phon]; repeat (rewrite sim_bind; rewrite ?e_mul_s, ?e_add_s, ?e_sub_s, ?e_scale_s, ?e_add_coeff_s, ?e_negate_s,
  ?e_zero_s, ?e_constant_s, ?e_alloc_square_s; cbv beta iota; cbn [fst snd px py phon]).
