(** Gadget code does not look at its driver: one [grel] lemma per gadget. *)
From Coq Require Import List Arith NArith ZArith Bool Lia.
From Verif Require Import FieldDef ArithModel ArithSpec GadgetModel SpongeModel FoldModel EscModel PcdModel AppModel RecModel ParSpec.
Import ListNotations.
Local Open Scope nat_scope.
Local Open Scope g_scope.

Create HintDb par.

Lemma Forall2_length {A B : Type} {R : A -> B -> Prop} {l1 l2} : Forall2 R l1 l2 -> length l1 = length l2.
Proof. induction 1; simpl; congruence. Qed.

Lemma gbind_p {F : Field} {W1 W2 A1 A2 B1 B2 : Type} (RW : W1 -> W2 -> Prop) hv (RA : A1 -> A2 -> Prop)
      (RB : B1 -> B2 -> Prop) (p : G F W1 A1) (q : G F W2 A2) f g :
  grel RW hv RA p q -> (forall a b, RA a b -> grel RW hv RB (f a) (g b)) ->
  grel RW hv RB (gbind p f) (gbind q g).
Proof.
  intros H Hf. induction H; simpl; try (constructor; auto; fail).
  - apply Hf; assumption.
Qed.
Lemma grel_weaken {F : Field} {W1 W2 A1 A2 : Type} (RW : W1 -> W2 -> Prop) hv (RA RA' : A1 -> A2 -> Prop)
      (p : G F W1 A1) (q : G F W2 A2) :
  (forall a b, RA a b -> RA' a b) -> grel RW hv RA p q -> grel RW hv RA' p q.
Proof. intros H Hg. induction Hg; constructor; auto. Qed.

(** values *)
Ltac vr :=
  unfold vrel, wrel, erel, brel, lift1, lift2 in *; simpl in *;
  match goal with h : bool |- _ => match goal with |- context [if h then _ else _] => destruct h end end;
  simpl in *;
  repeat match goal with H : _ /\ _ |- _ => destruct H end;
  repeat match goal with
         | H : ?a = None |- _ => rewrite !H
         | H : ?a = false |- _ => rewrite !H
         end; simpl;
  repeat match goal with H : ?a = ?b :> option _ |- _ => rewrite H; clear H | H : ?a = ?b :> bool |- _ => rewrite H; clear H end;
  try reflexivity;
  repeat match goal with |- context [match ?a with Some _ => _ | None => _ end] => destruct a; try reflexivity end.


Section Base.
  Context {F : Field} {W1 W2 : Type} {one1 : W1} {one2 : W2}.
  Context {RW : W1 -> W2 -> Prop} {hv : bool}.
  Hypothesis Hone : RW one1 one2.
  Context {wit1 wit2 : bool}.
  Hypothesis Hwit : wrel hv wit1 wit2.
  Local Notation er := (erel (F := F) RW hv).
  Local Notation br := (brel RW hv).
  Local Notation pr := (ptrel (F := F) RW hv).
  Local Notation GR := (grel (F := F) RW hv).
  Local Notation tr := (fun _ _ : unit => True).

  Lemma try_just_p {A B : Type} (x y : option A) (f : A -> option B) :
    vrel hv x y -> GR (vrel hv) (try_just x f) (try_just y f).
  Proof.
    unfold try_just, vrel. clear Hwit. destruct hv; intros ->.
    - destruct y as [a|]; [destruct (f a)|]; constructor; reflexivity.
    - destruct y as [a|]; [destruct (f a)|].
      + apply gr_ret; reflexivity.
      + apply gr_fail; reflexivity.
      + apply gr_ret; reflexivity.
  Qed.
  Lemma g_add_p l1 l2 : Forall2 (lrel RW) l1 l2 -> GR RW (g_add F W1 l1) (g_add F W2 l2).
  Proof. intros H. apply gr_add; [exact H|]. intros. apply gr_ret. assumption. Qed.
  Lemma g_enforce_p l1 l2 : Forall2 (lrel RW) l1 l2 -> GR tr (g_enforce F W1 l1) (g_enforce F W2 l2).
  Proof. intros H. apply gr_enf; [exact H|]. apply gr_ret. exact I. Qed.
  Lemma g_constant_p c : GR RW (g_constant F W1 one1 c) (g_constant F W2 one2 c).
  Proof. apply g_add_p. repeat constructor. exact Hone. Qed.
  Lemma g_mul_p w1 w2 : vrel hv w1 w2 -> GR (prel (prel RW RW) RW) (g_mul F W1 w1) (g_mul F W2 w2).
  Proof.
    intros H. apply gr_gate.
    - clear Hwit. vr.
    - intros. apply gr_ret. repeat split; assumption.
  Qed.
  Lemma g_equal_p a1 a2 b1 b2 : RW a1 a2 -> RW b1 b2 -> GR tr (g_equal F W1 a1 b1) (g_equal F W2 a2 b2).
  Proof. intros. apply g_enforce_p. repeat constructor; assumption. Qed.
End Base.
#[global] Hint Resolve try_just_p g_add_p g_enforce_p g_constant_p g_mul_p g_equal_p : par.
#[global] Hint Constructors lrel Forall2 orel srel sprel : par.
#[global] Hint Resolve Forall2_app : par.
#[global] Hint Extern 0 (Forall2 (lrel _) (_ :: _) (_ :: _)) =>
  repeat apply Forall2_cons; try apply Forall2_nil; constructor : par.

(** the values of related gadgets *)
Lemma erel_ev {F : Field} {W1 W2 : Type} (RW : W1 -> W2 -> Prop) hv (x : elem F W1) (y : elem F W2) :
  erel RW hv x y -> vrel hv (ev _ _ x) (ev _ _ y).
Proof. intros H; apply H. Qed.
Lemma erel_ew {F : Field} {W1 W2 : Type} (RW : W1 -> W2 -> Prop) hv (x : elem F W1) (y : elem F W2) :
  erel RW hv x y -> RW (ew _ _ x) (ew _ _ y).
Proof. intros H; apply H. Qed.
Lemma brel_bv {W1 W2 : Type} (RW : W1 -> W2 -> Prop) hv (x : bool_g W1) (y : bool_g W2) :
  brel RW hv x y -> vrel hv (bv _ x) (bv _ y).
Proof. intros H; apply H. Qed.
Lemma brel_bw {W1 W2 : Type} (RW : W1 -> W2 -> Prop) hv (x : bool_g W1) (y : bool_g W2) :
  brel RW hv x y -> RW (bw _ x) (bw _ y).
Proof. intros H; apply H. Qed.
Lemma ptrel_px {F : Field} {W1 W2 : Type} (RW : W1 -> W2 -> Prop) hv (x : point F W1) (y : point F W2) :
  ptrel RW hv x y -> erel RW hv (px _ _ x) (px _ _ y).
Proof. intros H; apply H. Qed.
Lemma ptrel_py {F : Field} {W1 W2 : Type} (RW : W1 -> W2 -> Prop) hv (x : point F W1) (y : point F W2) :
  ptrel RW hv x y -> erel RW hv (py _ _ x) (py _ _ y).
Proof. intros H; apply H. Qed.
Lemma mk_erel {F : Field} {W1 W2 : Type} (RW : W1 -> W2 -> Prop) hv w1 w2 (v1 v2 : option F) :
  RW w1 w2 -> vrel hv v1 v2 -> erel RW hv (mk_elem F W1 w1 v1) (mk_elem F W2 w2 v2).
Proof. intros; split; assumption. Qed.
Lemma mk_brel {W1 W2 : Type} (RW : W1 -> W2 -> Prop) hv w1 w2 (v1 v2 : option bool) :
  RW w1 w2 -> vrel hv v1 v2 -> brel RW hv (mk_bool W1 w1 v1) (mk_bool W2 w2 v2).
Proof. intros; split; assumption. Qed.
Lemma mk_ptrel {F : Field} {W1 W2 : Type} (RW : W1 -> W2 -> Prop) hv x1 x2 y1 y2 :
  erel RW hv x1 x2 -> erel RW hv y1 y2 -> ptrel RW hv (mk_point F W1 x1 y1) (mk_point F W2 x2 y2).
Proof. intros; split; assumption. Qed.
Lemma mk_prel {A B A' B' : Type} (RA : A -> A' -> Prop) (RB : B -> B' -> Prop) a b a' b' :
  RA a a' -> RB b b' -> prel RA RB (a, b) (a', b').
Proof. intros; split; assumption. Qed.
Lemma vrel_lift1 {A B : Type} (f : A -> B) hv x y : vrel hv x y -> vrel hv (lift1 f x) (lift1 f y).
Proof. unfold vrel; destruct hv; intros ->; reflexivity. Qed.
Lemma vrel_lift2 {A B C : Type} (f : A -> B -> C) hv x y x' y' :
  vrel hv x y -> vrel hv x' y' -> vrel hv (lift2 f x x') (lift2 f y y').
Proof. unfold vrel; destruct hv; intros -> ; [intros ->|]; reflexivity. Qed.
Lemma vrel_wit {A : Type} hv (wit1 wit2 : bool) (a : A) :
  wrel hv wit1 wit2 -> vrel hv (if wit1 then Some a else None) (if wit2 then Some a else None).
Proof. unfold wrel, vrel; destruct hv; intros ->; reflexivity. Qed.
#[global] Hint Resolve erel_ev brel_bv ptrel_px ptrel_py mk_erel mk_brel mk_ptrel mk_prel
  vrel_lift1 vrel_lift2 vrel_wit : par.
#[global] Hint Extern 1 => match goal with
  | |- ?R (ew _ _ _) (ew _ _ _) => eapply erel_ew
  | |- ?R (bw _ _) (bw _ _) => eapply brel_bw end : par.

(** one step of the proof that a body is generic *)
Ltac gpsolve := solve [eauto 9 with par | vr].
Ltac gp1 :=
  lazymatch goal with
  | |- grel _ _ _ (gbind _ _) (gbind _ _) => eapply gbind_p; [solve [eauto 9 with par] | intros ? ? ?]
  | |- grel _ _ _ (GRet _) (GRet _) => apply gr_ret; eauto 9 with par
  | |- grel _ _ _ GErr GErr => apply gr_err
  | |- grel _ _ _ (let '(_, _) := ?p in _) (let '(_, _) := ?q in _) => destruct p, q
  | |- grel _ _ _ _ _ => solve [eauto 9 with par]
  end;
  repeat match goal with
         | H : prel _ _ (_, _) (_, _) |- _ =>
             let a := fresh "H" in let b := fresh "H" in destruct H as [a b]; cbn [fst snd] in a, b
         | H : prel _ _ ?a ?b |- _ => is_var a; is_var b; destruct a, b
         end; cbv beta iota.
Ltac gp := repeat gp1.

Section Elem.
  Context {F : Field} {W1 W2 : Type} {one1 : W1} {one2 : W2}.
  Context {RW : W1 -> W2 -> Prop} {hv : bool}.
  Hypothesis Hone : RW one1 one2.
  Context {wit1 wit2 : bool}.
  Hypothesis Hwit : wrel hv wit1 wit2.
  Local Notation er := (erel (F := F) RW hv).
  Local Notation br := (brel RW hv).
  Local Notation GR := (grel (F := F) RW hv).
  Local Notation tr := (fun _ _ : unit => True).

  Lemma e_alloc_p v1 v2 : vrel hv v1 v2 -> GR er (e_alloc F W1 v1) (e_alloc F W2 v2).
  Proof. intros H. apply gr_alloc; [exact H|]. intros. apply gr_ret. split; assumption. Qed.
  Lemma e_alloc_square_p v1 v2 : vrel hv v1 v2 -> GR (prel er er) (e_alloc_square F W1 v1) (e_alloc_square F W2 v2).
  Proof. intros H. unfold e_alloc_square. cbv zeta. gp. Qed.
  Lemma e_one_p : er (e_one F W1 one1 wit1) (e_one F W2 one2 wit2).
  Proof. unfold e_one. eauto 9 with par. Qed.
  Lemma e_zero_p : GR er (e_zero F W1 one1 wit1) (e_zero F W2 one2 wit2).
  Proof. unfold e_zero. gp. Qed.
  Lemma e_constant_p v : GR er (e_constant F W1 one1 wit1 v) (e_constant F W2 one2 wit2 v).
  Proof. unfold e_constant. gp. Qed.
  Lemma e_mul_p x1 x2 y1 y2 : er x1 x2 -> er y1 y2 -> GR er (e_mul F W1 x1 y1) (e_mul F W2 x2 y2).
  Proof. intros. unfold e_mul. gp. Qed.
  Lemma e_square_p x1 x2 : er x1 x2 -> GR er (e_square F W1 x1) (e_square F W2 x2).
  Proof. intros. apply e_mul_p; assumption. Qed.
  Lemma e_enforce_zero_p x1 x2 : er x1 x2 -> GR tr (e_enforce_zero F W1 x1) (e_enforce_zero F W2 x2).
  Proof. intros. unfold e_enforce_zero. gp. Qed.
  Lemma e_add_p x1 x2 y1 y2 : er x1 x2 -> er y1 y2 -> GR er (e_add F W1 x1 y1) (e_add F W2 x2 y2).
  Proof. intros. unfold e_add. gp. Qed.
  Lemma e_sub_p x1 x2 y1 y2 : er x1 x2 -> er y1 y2 -> GR er (e_sub F W1 x1 y1) (e_sub F W2 x2 y2).
  Proof. intros. unfold e_sub. gp. Qed.
  Lemma e_add_coeff_p x1 x2 y1 y2 c : er x1 x2 -> er y1 y2 -> GR er (e_add_coeff F W1 x1 y1 c) (e_add_coeff F W2 x2 y2 c).
  Proof. intros. unfold e_add_coeff. gp. Qed.
  Lemma e_scale_p x1 x2 c : er x1 x2 -> GR er (e_scale F W1 x1 c) (e_scale F W2 x2 c).
  Proof. intros. unfold e_scale. gp. Qed.
  Lemma e_negate_p x1 x2 : er x1 x2 -> GR er (e_negate F W1 x1) (e_negate F W2 x2).
  Proof. apply e_scale_p. Qed.
  Lemma e_double_p x1 x2 : er x1 x2 -> GR er (e_double F W1 x1) (e_double F W2 x2).
  Proof. intros; apply e_add_p; assumption. Qed.
  Lemma e_invert_with_p x1 x2 i1 i2 : er x1 x2 -> vrel hv i1 i2 ->
    GR er (e_invert_with F W1 one1 x1 i1) (e_invert_with F W2 one2 x2 i2).
  Proof. intros. unfold e_invert_with. gp. Qed.
End Elem.
#[global] Hint Resolve e_alloc_p e_alloc_square_p e_one_p e_zero_p e_constant_p e_mul_p e_square_p e_enforce_zero_p e_add_p
  e_sub_p e_add_coeff_p e_scale_p e_negate_p e_double_p e_invert_with_p : par.

Lemma match3_vrel {A B C D : Type} hv (x x' : option A) (y y' : option B) (z z' : option C) (f : A -> B -> C -> option D) :
  vrel hv x x' -> vrel hv y y' -> vrel hv z z' ->
  vrel hv (match x, y, z with Some a, Some b, Some c => f a b c | _, _, _ => None end)
          (match x', y', z' with Some a, Some b, Some c => f a b c | _, _, _ => None end).
Proof. unfold vrel; destruct hv; intros ->; [intros -> ->|intros _ _]; reflexivity. Qed.
#[global] Hint Resolve match3_vrel : par.

(** element.rs, boolean.rs *)
Section Elem2.
  Context {F : Field} {W1 W2 : Type} {one1 : W1} {one2 : W2}.
  Context {RW : W1 -> W2 -> Prop} {hv : bool}.
  Hypothesis Hone : RW one1 one2.
  Context {wit1 wit2 : bool}.
  Hypothesis Hwit : wrel hv wit1 wit2.
  Local Notation er := (erel (F := F) RW hv).
  Local Notation br := (brel RW hv).
  Local Notation GR := (grel (F := F) RW hv).
  Local Notation tr := (fun _ _ : unit => True).

  Lemma e_invert_p x1 x2 : er x1 x2 -> GR er (e_invert F W1 one1 x1) (e_invert F W2 one2 x2).
  Proof. intros. unfold e_invert. gp. Qed.
  Lemma e_div_nonzero_p x1 x2 y1 y2 : er x1 x2 -> er y1 y2 -> GR er (e_div_nonzero F W1 x1 y1) (e_div_nonzero F W2 x2 y2).
  Proof. intros. unfold e_div_nonzero. gp. Qed.
  Lemma e_fold_go_p s1 s2 es1 es2 : er s1 s2 -> Forall2 er es1 es2 -> forall a1 a2, er a1 a2 ->
    GR er (e_fold_go F W1 a1 es1 s1) (e_fold_go F W2 a2 es2 s2).
  Proof. intros Hs; induction 1; intros; cbn [e_fold_go]; gp. Qed.
  Hint Resolve e_fold_go_p : par.
  Lemma e_fold_p s1 s2 es1 es2 : er s1 s2 -> Forall2 er es1 es2 ->
    GR er (e_fold F W1 one1 wit1 es1 s1) (e_fold F W2 one2 wit2 es2 s2).
  Proof. intros Hs; destruct 1; cbn [e_fold]; gp. Qed.
  Lemma e_squarings_p k : forall x1 x2, er x1 x2 -> GR er (e_squarings F W1 k x1) (e_squarings F W2 k x2).
  Proof. induction k; intros; cbn [e_squarings]; gp. Qed.
  Hint Resolve e_squarings_p : par.
  Lemma e_root_of_unity_p x1 x2 k : er x1 x2 ->
    GR tr (e_root_of_unity F W1 one1 wit1 x1 k) (e_root_of_unity F W2 one2 wit2 x2 k).
  Proof. intros; unfold e_root_of_unity; gp. Qed.
  Lemma e_sum_go_p es1 es2 : Forall2 er es1 es2 -> forall a1 a2, er a1 a2 ->
    GR er (e_sum_go F W1 a1 es1) (e_sum_go F W2 a2 es2).
  Proof. induction 1; intros; cbn [e_sum_go]; gp. Qed.
  Hint Resolve e_sum_go_p : par.
  Lemma e_sum_p es1 es2 : Forall2 er es1 es2 -> GR er (e_sum F W1 one1 wit1 es1) (e_sum F W2 one2 wit2 es2).
  Proof. intros; unfold e_sum; gp. Qed.
  Lemma e_multiadd_p v1 v2 cs : Forall2 er v1 v2 ->
    GR er (e_multiadd F W1 wit1 v1 cs) (e_multiadd F W2 wit2 v2 cs).
  Proof.
    intros H. unfold e_multiadd. rewrite (Forall2_length H).
    destruct (Nat.eqb _ _); [|apply gr_err].
    eapply gbind_p.
    - apply g_add_p. revert cs; induction H; intros [|c cs]; simpl; eauto 6 with par.
    - intros. apply gr_ret. split; [assumption|]. cbn [ev].
      assert (Hv : vrel hv (if wit1 then Some (f0 : F) else None) (if wit2 then Some f0 else None)) by eauto 9 with par.
      revert cs Hv. generalize (if wit1 then Some (f0 : F) else None) (if wit2 then Some (f0 : F) else None).
      induction H; intros i j [|c cs] Hv; simpl; auto. apply IHForall2. eauto 9 with par.
  Qed.

  Lemma b_alloc_p v1 v2 : vrel hv v1 v2 -> GR br (b_alloc F W1 v1) (b_alloc F W2 v2).
  Proof. intros; unfold b_alloc; gp. Qed.
  Lemma b_not_p x1 x2 : br x1 x2 -> GR br (b_not F W1 one1 x1) (b_not F W2 one2 x2).
  Proof. intros; unfold b_not; gp. Qed.
  Lemma b_and_p x1 x2 y1 y2 : br x1 x2 -> br y1 y2 -> GR br (b_and F W1 x1 y1) (b_and F W2 x2 y2).
  Proof. intros; unfold b_and; gp. Qed.
  Lemma b_elem_p x1 x2 : br x1 x2 -> er (b_elem F W1 x1) (b_elem F W2 x2).
  Proof. intros; unfold b_elem; eauto with par. Qed.
  Hint Resolve b_elem_p : par.
  Lemma b_select_p c1 c2 x1 x2 y1 y2 : br c1 c2 -> er x1 x2 -> er y1 y2 ->
    GR er (b_select F W1 c1 x1 y1) (b_select F W2 c2 x2 y2).
  Proof. intros; unfold b_select; gp. Qed.
  Lemma b_cond_equal_p c1 c2 x1 x2 y1 y2 : br c1 c2 -> er x1 x2 -> er y1 y2 ->
    GR tr (b_cond_equal F W1 c1 x1 y1) (b_cond_equal F W2 c2 x2 y2).
  Proof. intros; unfold b_cond_equal; gp. Qed.
  Lemma e_is_zero_p x1 x2 : er x1 x2 -> GR br (e_is_zero F W1 one1 x1) (e_is_zero F W2 one2 x2).
  Proof. intros; unfold e_is_zero; gp. Qed.
  Hint Resolve e_is_zero_p : par.
  Lemma e_is_equal_p x1 x2 y1 y2 : er x1 x2 -> er y1 y2 -> GR br (e_is_equal F W1 one1 x1 y1) (e_is_equal F W2 one2 x2 y2).
  Proof. intros; unfold e_is_equal; gp. Qed.
  Lemma pack_value_p c1 c2 : Forall2 br c1 c2 -> forall v1 v2 g1 g2, vrel hv v1 v2 -> vrel hv g1 g2 ->
    vrel hv (pack_value F W1 c1 v1 g1) (pack_value F W2 c2 v2 g2).
  Proof. induction 1; intros; cbn [pack_value]; auto. apply IHForall2; eauto 9 with par. Qed.
  Lemma b_pack_p c1 c2 : Forall2 br c1 c2 -> GR er (b_pack F W1 wit1 c1) (b_pack F W2 wit2 c2).
  Proof.
    intros H. unfold b_pack. eapply gbind_p.
    - apply g_add_p. unfold pack_lc. induction H; simpl; eauto 6 with par.
    - intros. apply gr_ret. split; [assumption|]. apply pack_value_p; eauto 9 with par.
  Qed.
  Hint Resolve b_pack_p : par.
  Lemma Forall2_firstn {A B : Type} (R : A -> B -> Prop) n l1 l2 : Forall2 R l1 l2 -> Forall2 R (firstn n l1) (firstn n l2).
  Proof. intros H; revert n; induction H; intros [|n]; simpl; auto. Qed.
  Lemma Forall2_skipn {A B : Type} (R : A -> B -> Prop) n l1 l2 : Forall2 R l1 l2 -> Forall2 R (skipn n l1) (skipn n l2).
  Proof. intros H; revert n; induction H; intros [|n]; simpl; auto. Qed.
  Hint Resolve Forall2_firstn Forall2_skipn : par.
  Lemma b_multipack_go_p fuel cap : forall c1 c2, Forall2 br c1 c2 ->
    GR (Forall2 er) (b_multipack_go F W1 fuel wit1 cap c1) (b_multipack_go F W2 fuel wit2 cap c2).
  Proof. induction fuel; intros c1 c2 H; pose proof H as H'; destruct H; cbn [b_multipack_go]; gp. Qed.
  Lemma b_multipack_p cap c1 c2 : Forall2 br c1 c2 ->
    GR (Forall2 er) (b_multipack F W1 wit1 cap c1) (b_multipack F W2 wit2 cap c2).
  Proof.
    intros H; unfold b_multipack. rewrite (Forall2_length H). destruct (Nat.eqb cap 0); [apply gr_err|].
    apply b_multipack_go_p; exact H.
  Qed.
End Elem2.
#[global] Hint Resolve e_invert_p e_div_nonzero_p e_fold_go_p e_fold_p e_squarings_p e_root_of_unity_p e_sum_go_p e_sum_p
  e_multiadd_p b_alloc_p b_not_p b_and_p b_elem_p b_select_p b_cond_equal_p e_is_zero_p e_is_equal_p b_pack_p
  Forall2_firstn Forall2_skipn b_multipack_p : par.
(** point.rs, endoscalar.rs, txz.rs *)
Section Points.
  Context {F : Field} {W1 W2 : Type} {one1 : W1} {one2 : W2}.
  Context {RW : W1 -> W2 -> Prop} {hv : bool}.
  Hypothesis Hone : RW one1 one2.
  Context {wit1 wit2 : bool}.
  Hypothesis Hwit : wrel hv wit1 wit2.
  Local Notation er := (erel (F := F) RW hv).
  Local Notation br := (brel RW hv).
  Local Notation pr := (ptrel (F := F) RW hv).
  Local Notation nr := (enrel RW hv).
  Local Notation GR := (grel (F := F) RW hv).
  Local Notation tr := (fun _ _ : unit => True).
  Variables (cb zeta : F).

  Lemma p_alloc_p v1 v2 : vrel hv v1 v2 -> GR pr (p_alloc F W1 one1 cb v1) (p_alloc F W2 one2 cb v2).
  Proof. intros; unfold p_alloc. eapply gbind_p; [apply try_just_p; eassumption|intros]. gp. Qed.
  Lemma p_constant_p p : GR pr (p_constant F W1 one1 wit1 p) (p_constant F W2 one2 wit2 p).
  Proof. unfold p_constant. destruct p as [[x y]|]; gp. Qed.
  Lemma p_endo_p p1 p2 : pr p1 p2 -> GR pr (p_endo F W1 zeta p1) (p_endo F W2 zeta p2).
  Proof. intros; unfold p_endo; gp. Qed.
  Lemma p_negate_p p1 p2 : pr p1 p2 -> GR pr (p_negate F W1 p1) (p_negate F W2 p2).
  Proof. intros; unfold p_negate; gp. Qed.
  Lemma p_cond_endo_p p1 p2 c1 c2 : pr p1 p2 -> br c1 c2 -> GR pr (p_cond_endo F W1 zeta p1 c1) (p_cond_endo F W2 zeta p2 c2).
  Proof. intros; unfold p_cond_endo; gp. Qed.
  Lemma p_cond_negate_p p1 p2 c1 c2 : pr p1 p2 -> br c1 c2 -> GR pr (p_cond_negate F W1 p1 c1) (p_cond_negate F W2 p2 c2).
  Proof. intros; unfold p_cond_negate; gp. Qed.
  Lemma p_double_p p1 p2 : pr p1 p2 -> GR pr (p_double F W1 p1) (p_double F W2 p2).
  Proof. intros; unfold p_double; gp. Qed.
  Lemma p_add_incomplete_p p1 p2 q1 q2 n1 n2 : pr p1 p2 -> pr q1 q2 -> orel er n1 n2 ->
    GR (prel pr (orel er)) (p_add_incomplete F W1 p1 q1 n1) (p_add_incomplete F W2 p2 q2 n2).
  Proof.
    intros Hp Hq Hn; unfold p_add_incomplete. gp1.
    eapply gbind_p with (RA := orel er); [destruct Hn; gp|intros]. gp.
  Qed.
  Lemma p_double_and_add_p p1 p2 q1 q2 : pr p1 p2 -> pr q1 q2 ->
    GR pr (p_double_and_add F W1 p1 q1) (p_double_and_add F W2 p2 q2).
  Proof. intros; unfold p_double_and_add; gp. Qed.
  Hint Resolve p_endo_p p_cond_endo_p p_cond_negate_p p_double_p p_add_incomplete_p p_double_and_add_p : par.

  Lemma mk_enrel b1 b2 v1 v2 : Forall2 RW b1 b2 -> vrel hv v1 v2 -> nr (mk_endo W1 b1 v1) (mk_endo W2 b2 v2).
  Proof. split; assumption. Qed.
  Hint Resolve mk_enrel : par.
  Lemma en_bools_p e1 e2 : nr e1 e2 -> Forall2 br (en_bools W1 e1) (en_bools W2 e2).
  Proof.
    intros [Hb Hv]. unfold en_bools. rewrite (Forall2_length Hb).
    generalize (seq 0 (length (en_bits W2 e2))). induction Hb; intros [|i s]; simpl; constructor; auto.
    split; simpl; [assumption|]. eauto 9 with par.
  Qed.
  Lemma en_alloc_go_p : forall is v1 v2, vrel hv v1 v2 ->
    GR (Forall2 RW) (en_alloc_go F W1 is v1) (en_alloc_go F W2 is v2).
  Proof. induction is; intros; cbn [en_alloc_go]; gp. Qed.
  Hint Resolve en_bools_p en_alloc_go_p : par.
  Variable nbits : nat.
  Lemma en_alloc_p v1 v2 : vrel hv v1 v2 -> GR nr (en_alloc F W1 nbits v1) (en_alloc F W2 nbits v2).
  Proof. intros; unfold en_alloc; gp. Qed.
  Variables (gen : F) (fsqrt : F -> option F).
  Lemma en_extract_go_p : forall is e1 e2 b1 b2 v1 v2 c c0 c1, er e1 e2 -> Forall2 RW b1 b2 -> vrel hv v1 v2 ->
    GR nr (en_extract_go F W1 one1 gen fsqrt is e1 b1 v1 c c0 c1) (en_extract_go F W2 one2 gen fsqrt is e2 b2 v2 c c0 c1).
  Proof.
    induction is; intros; cbn [en_extract_go]; [gp|].
    eapply gbind_p; [apply try_just_p; eauto with par|intros].
    gp1. eapply gbind_p; [eauto 6 with par|intros]. destruct a1, b0. destruct H4. cbn [fst snd] in *. gp.
  Qed.
  Hint Resolve en_extract_go_p : par.
  Lemma en_extract_p e1 e2 : er e1 e2 ->
    GR nr (en_extract F W1 one1 nbits gen fsqrt wit1 e1) (en_extract F W2 one2 nbits gen fsqrt wit2 e2).
  Proof. intros; unfold en_extract; eauto with par. Qed.
  Lemma en_scale_go_p n : forall b1 b2 p1 p2 a1 a2, length b1 <= n -> Forall2 br b1 b2 -> pr p1 p2 -> pr a1 a2 ->
    GR pr (en_scale_go F W1 zeta b1 p1 a1) (en_scale_go F W2 zeta b2 p2 a2).
  Proof.
    induction n; intros b1 b2 p1 p2 a1 a2 Hn Hb Hp Ha; destruct Hb; cbn [length] in Hn; try lia; cbn [en_scale_go]; try (gp; fail).
    destruct Hb; [gp|]. cbn [length] in Hn. gp. eapply IHn; eauto with par. lia.
  Qed.
  Lemma en_group_scale_p e1 e2 p1 p2 : nr e1 e2 -> pr p1 p2 ->
    GR pr (en_group_scale F W1 zeta e1 p1) (en_group_scale F W2 zeta e2 p2).
  Proof.
    intros; unfold en_group_scale. gp1. gp1. cbn [fst snd]. gp1. eapply en_scale_go_p; eauto with par.
  Qed.
  Lemma en_lift_go_p n : forall b1 b2 a1 a2 c, length b1 <= n -> Forall2 br b1 b2 -> er a1 a2 ->
    GR (prel er eq) (en_lift_go F W1 zeta b1 a1 c) (en_lift_go F W2 zeta b2 a2 c).
  Proof.
    induction n; intros b1 b2 a1 a2 c Hn Hb Ha; destruct Hb; cbn [length] in Hn; try lia; cbn [en_lift_go]; try (gp; fail).
    destruct Hb; [gp|]. cbn [length] in Hn. gp. eapply IHn; eauto with par. lia.
  Qed.
  Lemma en_lift_p e1 e2 : nr e1 e2 -> GR er (en_lift F W1 one1 zeta wit1 e1) (en_lift F W2 one2 zeta wit2 e2).
  Proof.
    intros; unfold en_lift. gp1. eapply gbind_p; [eapply en_lift_go_p; eauto with par|intros].
    destruct a0, b0. destruct H1. cbn [fst snd] in *. subst. gp.
  Qed.

  Lemma g_txz_loop_p k : forall l1 l2 r1 r2 x1 x2 y1 y2, er l1 l2 -> er r1 r2 -> er x1 x2 -> er y1 y2 ->
    GR (prel er er) (g_txz_loop F W1 k l1 r1 x1 y1) (g_txz_loop F W2 k l2 r2 x2 y2).
  Proof. induction k; intros; cbn [g_txz_loop]; gp. Qed.
  Hint Resolve g_txz_loop_p : par.
  Lemma g_txz_execute_p k x1 x2 z1 z2 a1 a2 : er x1 x2 -> er z1 z2 -> vrel hv a1 a2 ->
    GR er (g_txz_execute F W1 one1 k x1 z1 a1) (g_txz_execute F W2 one2 k x2 z2 a2).
  Proof. intros; unfold g_txz_execute; gp. Qed.
  Lemma g_txz_predict_p k x1 x2 z1 z2 : er x1 x2 -> er z1 z2 ->
    GR (prel er (vrel hv)) (g_txz_predict F W1 k x1 z1) (g_txz_predict F W2 k x2 z2).
  Proof. intros; unfold g_txz_predict; gp. Qed.
End Points.
#[global] Hint Resolve p_alloc_p p_constant_p p_endo_p p_negate_p p_cond_endo_p p_cond_negate_p p_double_p p_add_incomplete_p
  p_double_and_add_p mk_enrel en_bools_p en_alloc_p en_extract_p en_group_scale_p en_lift_p g_txz_execute_p g_txz_predict_p : par.
