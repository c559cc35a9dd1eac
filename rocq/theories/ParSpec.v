(** Driver genericity as a relation between two runs of the same gadget code.

    [grel RW hv RA p q]: [p] and [q] make the same driver calls in the same order
    on wires related by [RW], with the same coefficients, and their results are
    related by [RA].  [hv = true]: both runs carry the same witness values.
    [hv = false]: the left run is one without witness data (every witness value
    it offers is [None]); the right one is arbitrary and may also stop with an
    error that comes from a witness closure. *)
From Coq Require Import List Arith NArith Bool.
From Verif Require Import FieldDef ArithModel ArithSpec GadgetModel SpongeModel PcdModel AppModel RecModel.
Import ListNotations.

(** [DriverValue]s of the two runs *)
Definition vrel {T : Type} (hv : bool) (x y : option T) : Prop := if hv then x = y else x = None.
(** [MaybeKind] of the two drivers *)
Definition wrel (hv wit1 wit2 : bool) : Prop := if hv then wit1 = wit2 else wit1 = false.

(** calls on linear expressions, wires related *)
Inductive lrel {F : Field} {W1 W2 : Type} (RW : W1 -> W2 -> Prop) : lcall F W1 -> lcall F W2 -> Prop :=
| lr_term w w' c : RW w w' -> lrel RW (LTerm w c) (LTerm w' c)
| lr_gain c : lrel RW (LGain c) (LGain c)
| lr_add w w' : RW w w' -> lrel RW (LAdd w) (LAdd w')
| lr_sub w w' : RW w w' -> lrel RW (LSub w) (LSub w')
| lr_extend ts ts' : Forall2 (fun t t' => RW (fst t) (fst t') /\ snd t = snd t') ts ts' ->
                     lrel RW (LExtend ts) (LExtend ts').

Inductive grel {F : Field} {W1 W2 A1 A2 : Type} (RW : W1 -> W2 -> Prop) (hv : bool) (RA : A1 -> A2 -> Prop)
  : G F W1 A1 -> G F W2 A2 -> Prop :=
| gr_ret a1 a2 : RA a1 a2 -> grel RW hv RA (GRet a1) (GRet a2)
| gr_err : grel RW hv RA GErr GErr
| gr_fail p : hv = false -> grel RW hv RA p GErr
| gr_gate w1 w2 k1 k2 :
    vrel hv w1 w2 ->
    (forall a1 a2 b1 b2 c1 c2 d1 d2, RW a1 a2 -> RW b1 b2 -> RW c1 c2 -> RW d1 d2 ->
       grel RW hv RA (k1 a1 b1 c1 d1) (k2 a2 b2 c2 d2)) ->
    grel RW hv RA (GGate w1 k1) (GGate w2 k2)
| gr_alloc w1 w2 k1 k2 :
    vrel hv w1 w2 -> (forall a1 a2, RW a1 a2 -> grel RW hv RA (k1 a1) (k2 a2)) ->
    grel RW hv RA (GAlloc w1 k1) (GAlloc w2 k2)
| gr_add l1 l2 k1 k2 :
    Forall2 (lrel RW) l1 l2 -> (forall a1 a2, RW a1 a2 -> grel RW hv RA (k1 a1) (k2 a2)) ->
    grel RW hv RA (GAdd l1 k1) (GAdd l2 k2)
| gr_enf l1 l2 k1 k2 :
    Forall2 (lrel RW) l1 l2 -> grel RW hv RA k1 k2 -> grel RW hv RA (GEnf l1 k1) (GEnf l2 k2).

(** relations on the gadget data *)
Section Rels.
  Context {F : Field} {W1 W2 : Type}.
  Variable RW : W1 -> W2 -> Prop.
  Variable hv : bool.
  Definition erel (x : elem F W1) (y : elem F W2) : Prop :=
    RW (ew _ _ x) (ew _ _ y) /\ vrel hv (ev _ _ x) (ev _ _ y).
  Definition brel (x : bool_g W1) (y : bool_g W2) : Prop := RW (bw _ x) (bw _ y) /\ vrel hv (bv _ x) (bv _ y).
  Definition ptrel (p : point F W1) (q : point F W2) : Prop :=
    erel (px _ _ p) (px _ _ q) /\ erel (py _ _ p) (py _ _ q).
  Definition enrel (e : endo W1) (e' : endo W2) : Prop :=
    Forall2 RW (en_bits _ e) (en_bits _ e') /\ vrel hv (en_value _ e) (en_value _ e').
  Inductive sprel : sponge F W1 -> sponge F W2 -> Prop :=
  | sp_sq v s v' s' : Forall2 erel v v' -> Forall2 erel s s' -> sprel (SqueezeMode v s) (SqueezeMode v' s')
  | sp_ab v s v' s' : Forall2 erel v v' -> Forall2 erel s s' -> sprel (AbsorbMode v s) (AbsorbMode v' s').
End Rels.
Definition prel {A B A' B' : Type} (RA : A -> A' -> Prop) (RB : B -> B' -> Prop) (p : A * B) (q : A' * B') : Prop :=
  RA (fst p) (fst q) /\ RB (snd p) (snd q).
Inductive orel {A A' : Type} (RA : A -> A' -> Prop) : option A -> option A' -> Prop :=
| or_none : orel RA None None
| or_some a a' : RA a a' -> orel RA (Some a) (Some a').
Inductive srel {A B A' B' : Type} (RA : A -> A' -> Prop) (RB : B -> B' -> Prop) : A + B -> A' + B' -> Prop :=
| sr_l a a' : RA a a' -> srel RA RB (inl a) (inl a')
| sr_r b b' : RB b b' -> srel RA RB (inr b) (inr b').

(** the stage outputs and builders of the recursion circuits *)
Section RecRels.
  Context {F : Field} {W1 W2 : Type}.
  Variable RW : W1 -> W2 -> Prop.
  Variable hv : bool.
  Local Notation er := (erel (F := F) RW hv).
  Local Notation pr := (ptrel (F := F) RW hv).
  Definition uorel (u : uout F W1) (u' : uout F W2) : Prop :=
    (forall f, pr (uo_pt _ _ u f) (uo_pt _ _ u' f)) /\ (forall f, er (uo_el _ _ u f) (uo_el _ _ u' f)).
  Definition slrel {T T' : Type} (R : T -> T' -> Prop) (s : slot T) (s' : slot T') : Prop :=
    orel R (sl_value s) (sl_value s') /\ sl_set s = sl_set s'.
  Definition ubrel (b : ubuilder F W1) (b' : ubuilder F W2) : Prop :=
    (forall f, slrel pr (ub_pt b f) (ub_pt b' f)) /\ (forall f, slrel er (ub_el b f) (ub_el b' f)) /\
    vrel hv (ub_inst b) (ub_inst b').
  Definition pirel (i : pinputs F W1) (i' : pinputs F W2) : Prop :=
    Forall2 er (pi_left _ _ i) (pi_left _ _ i') /\ Forall2 er (pi_right _ _ i) (pi_right _ _ i') /\
    Forall2 er (pi_out _ _ i) (pi_out _ _ i') /\ er (pi_cid _ _ i) (pi_cid _ _ i') /\ uorel (pi_uni _ _ i) (pi_uni _ _ i').
  Definition prerel (p : preamble F W1) (p' : preamble F W2) : Prop :=
    pirel (pr_left _ _ p) (pr_left _ _ p') /\ pirel (pr_right _ _ p) (pr_right _ _ p').
  Definition ckrel (c : child_ky (elem F W1)) (c' : child_ky (elem F W2)) : Prop :=
    er (ck_application c) (ck_application c') /\ er (ck_unified c) (ck_unified c') /\ er (ck_bridge c) (ck_bridge c').
  Definition oerel (o : outer_error F W1) (o' : outer_error F W2) : Prop :=
    Forall2 er (oe_errs _ _ o) (oe_errs _ _ o') /\ Forall2 er (oe_collapsed _ _ o) (oe_collapsed _ _ o') /\
    ckrel (oe_left _ _ o) (oe_left _ _ o') /\ ckrel (oe_right _ _ o) (oe_right _ _ o') /\
    Forall2 er (oe_sponge _ _ o) (oe_sponge _ _ o').
  Definition cqrel (q : cquery (elem F W1)) (q' : cquery (elem F W2)) : Prop :=
    (forall i, er (cq_rx q i) (cq_rx q' i)) /\ er (cq_a q) (cq_a q') /\ er (cq_b q) (cq_b q') /\
    er (cq_child_xy_w q) (cq_child_xy_w q') /\ er (cq_xy_cid q) (cq_xy_cid q') /\ er (cq_wy_x q) (cq_wy_x q').
  Definition qorel (q : queryout (elem F W1)) (q' : queryout (elem F W2)) : Prop :=
    (forall i, er (qo_fixed q i) (qo_fixed q' i)) /\ er (qo_wxy q) (qo_wxy q') /\
    cqrel (qo_left q) (qo_left q') /\ cqrel (qo_right q) (qo_right q').
  Definition cerel (e : ceval (elem F W1)) (e' : ceval (elem F W2)) : Prop :=
    (forall i, er (ce_rx e i) (ce_rx e' i)) /\ er (ce_a e) (ce_a e') /\ er (ce_b e) (ce_b e') /\
    er (ce_xy e) (ce_xy e') /\ er (ce_p e) (ce_p e').
  Definition eorel (e : evalout (elem F W1)) (e' : evalout (elem F W2)) : Prop :=
    cerel (eo_left e) (eo_left e') /\ cerel (eo_right e) (eo_right e') /\ er (eo_wx0 e) (eo_wx0 e') /\
    er (eo_wx1 e) (eo_wx1 e') /\ er (eo_wy e) (eo_wy e') /\ er (eo_a e) (eo_a e') /\ er (eo_b e) (eo_b e') /\
    er (eo_xy e) (eo_xy e').
  Inductive ecrel : encoded F W1 -> encoded F W2 -> Prop :=
  | ec_gadget d d' : Forall2 er d d' -> ecrel (EncGadget d) (EncGadget d')
  | ec_uniform d d' : Forall2 er d d' -> ecrel (EncUniform d) (EncUniform d').
  (** [data] passed as a [DriverValue] holding a list of known length *)
  Definition datarel {T : Type} (d d' : list T) : Prop := if hv then d = d' else length d = length d'.
End RecRels.
