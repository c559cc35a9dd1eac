(** C70: the Send contract of gadgets. *)
From Coq Require Import List Bool Arith.
From Verif Require Import DeriveModel SendModel SendSpec.
Import ListNotations.

Scheme ty_mut := Induction for ty Sort Prop with flds_mut := Induction for flds Sort Prop.
Combined Scheme ty_flds_ind from ty_mut, flds_mut.
Scheme pi_mut := Minimality for phantom_in Sort Prop with pf_mut := Minimality for phantom_field Sort Prop.
Combined Scheme pi_pf_ind from pi_mut, pf_mut.
Scheme wi_mut := Minimality for wire_in Sort Prop with wf_mut := Minimality for wire_field Sort Prop.
Combined Scheme wi_wf_ind from wi_mut, wf_mut.

Lemma send_phantoms :
  (forall d t d' u, phantom_in d t d' u -> send d t = true -> send d' u = true) /\
  (forall d fs d' u, phantom_field d fs d' u -> send_flds d fs = true -> send d' u = true).
Proof.
  apply pi_pf_ind; intros; cbn [send send_flds] in *;
    repeat match goal with H : _ && _ = true |- _ => apply andb_true_iff in H; destruct H end; auto.
Qed.

Lemma send_wires :
  (forall t, wire_in t -> forall d, send d t = true -> wire_send d = true) /\
  (forall fs, wire_field fs -> forall d, send_flds d fs = true -> wire_send d = true).
Proof.
  apply wi_wf_ind; intros; cbn [send send_flds] in *;
    repeat match goal with H : _ && _ = true |- _ => apply andb_true_iff in H; destruct H end; auto;
    match goal with H : forall d, send d _ = true -> _, K : send (demoted ?e) _ = true |- _ => exact (H (demoted e) K) end.
Qed.

Lemma send_gadgets :
  (forall t, is_gadget t = true -> forall d, wire_send d = true ->
     (forall d' u, phantom_in d t d' u -> send d' u = true) -> send d t = true) /\
  (forall fs, derives fs = true -> forall d, wire_send d = true ->
     (forall d' u, phantom_field d fs d' u -> send d' u = true) -> send_flds d fs = true).
Proof.
  apply ty_flds_ind; cbn [is_gadget derives]; try (intros; discriminate).
  - reflexivity.
  - intros t IH G d W P. apply IH; auto. intros; apply P; constructor; assumption.
  - intros a IHa b IHb G d W P. apply andb_true_iff in G. destruct G as [Ga Gb]. cbn [send]. apply andb_true_iff.
    split; [apply IHa|apply IHb]; auto; intros d' u H; apply P; [apply pi_fst|apply pi_snd]; exact H.
  - intros t IH G d W P. apply IH; auto. intros; apply P; constructor; assumption.
  - intros t IH G d W P. apply IH; auto. intros; apply P; constructor; assumption.
  - intros fs IH G d W P. apply IH; auto. intros; apply P; constructor; assumption.
  - intros t IH G d W P. cbn [send]. apply IH; auto. intros; apply P; constructor; assumption.
  - reflexivity.
  - intros attrs t IHt fs IHf G d W P. apply andb_true_iff in G. destruct G as [Gt Gf]. cbn [send_flds]. apply andb_true_iff.
    split; [|apply IHf; auto; intros; apply P; apply pf_next; assumption].
    destruct (classify attrs) as [[| | |]|]; [| | | |discriminate].
    + destruct t; try discriminate. cbn [send]. rewrite Gt. now destruct (always d).
    + destruct t; try discriminate. exact W.
    + apply IHt; auto. intros; apply P; apply pf_in; assumption.
    + destruct t; try discriminate. cbn [send]. apply P. apply pf_here.
Qed.

(** The contract of [GadgetKind]: at a driver with [Send] wires a gadget is
    [Send] exactly when the types named by its [PhantomData] fields are. *)
Theorem C70_send : forall d t, is_gadget t = true -> wire_send d = true ->
  (send d t = true <-> forall d' u, phantom_in d t d' u -> send d' u = true).
Proof.
  intros d t G W. split.
  - intros S d' u P. apply (proj1 send_phantoms d t d' u P S).
  - apply (proj1 send_gadgets t G d W).
Qed.
Print Assumptions C70_send.

(** The condition on the driver cannot be dropped: a gadget with a wire is not
    [Send] at a driver whose wires are not. *)
Theorem C70_wires : forall d t, wire_in t -> wire_send d = false -> send d t = false.
Proof.
  intros d t H W. destruct (send d t) eqn:S; [|reflexivity].
  rewrite (proj1 send_wires t H d S) in W. discriminate.
Qed.
Print Assumptions C70_wires.

Lemma send_demoted :
  (forall t d, send d t = true -> send (demoted d) t = true) /\
  (forall fs d, send_flds d fs = true -> send_flds (demoted d) fs = true).
Proof.
  apply ty_flds_ind; cbn [send send_flds]; intros;
    repeat match goal with H : _ && _ = true |- _ => apply andb_true_iff in H; destruct H end;
    try (apply andb_true_iff; split); auto.
Qed.

(** A claim of [Sendable] is right when the types named by [PhantomData] fields
    are [Send]; the demoted gadget is then accepted and [Send] too. *)
Theorem C70_sendable : forall d t, sendable_new d t = true ->
  (forall d' u, phantom_in d t d' u -> send d' u = true) ->
  send d t = true /\ sendable_new d (YDemoted t) = true /\ send d (YDemoted t) = true.
Proof.
  intros d t E P. unfold sendable_new in *. apply andb_true_iff in E. destruct E as [G W].
  assert (S : send d t = true) by (apply C70_send; assumption). split; [exact S|].
  cbn [is_gadget send]. rewrite G, W. split; [reflexivity|]. apply (proj1 send_demoted). exact S.
Qed.
Print Assumptions C70_sendable.

(** The documented contract (gadgets.rs:201,210 "The derive macro ensures that
    this is the case") is false: a derived gadget with a marker for a type that
    is not [Send] (or for the driver itself) is accepted, also by [Sendable],
    though it is not [Send]. *)
Theorem C70_contract_refuted :
  ~ (forall d t, sendable_new d t = true -> send d t = true) /\
  forall u d, send d u = false -> wire_send d = true ->
    exists t, sendable_new d t = true /\ phantom_in d t d u /\ send d t = false.
Proof.
  assert (R : forall u d, send d u = false -> wire_send d = true ->
    exists t, sendable_new d t = true /\ phantom_in d t d u /\ send d t = false).
  { intros u d N W. exists (YStruct (FCons [A_wire] YWire (FCons [A_phantom] (YPhantom u) FNil))).
    split; [unfold sendable_new; cbn; rewrite W; reflexivity|]. split.
    - apply pi_struct, pf_next, pf_here.
    - cbn [send send_flds]. rewrite N. apply andb_false_r. }
  split; [|exact R]. intros H. destruct (R YDriver (mk_drv true false true) eq_refl eq_refl) as (t & A & _ & B).
  rewrite (H _ _ A) in B. discriminate.
Qed.
Print Assumptions C70_contract_refuted.

(** Element, Boolean and Point as declared (element.rs:52-61, boolean.rs:28-37,
    point.rs:25-33; curves are [Send]), a vector of suffixed points, at a driver
    that is not [Send] itself *)
Definition y_element := YStruct (FCons [A_wire] YWire (FCons [A_value] (YValue true) FNil)).
Definition y_point (curve : bool) :=
  YStruct (FCons [A_gadget] y_element (FCons [A_gadget] y_element (FCons [A_phantom] (YPhantom (YPlain curve)) FNil))).
Definition y_with_suffix (g : ty) := YStruct (FCons [] g (FCons [A_gadget] y_element FNil)).
Example C70_ex :
  let d := mk_drv true false true in
  let g := YVec (y_with_suffix (YPair (y_point true) (YDemoted (y_point true)))) in
  sendable_new d g = true /\ send d g = true /\ wire_in g /\ phantom_in d g d (YPlain true) /\
  send (mk_drv false false true) g = false /\
  is_gadget (YStruct (FCons [A_value] (YValue false) FNil)) = false /\
  is_gadget (YStruct (FCons [A_wire] (YPlain true) FNil)) = false /\
  (let p := y_with_suffix (y_point false) in sendable_new d p = true /\ send d p = false).
Proof.
  cbv zeta. repeat split; try reflexivity.
  - apply wi_vec, wi_struct, wf_in, wi_fst, wi_struct, wf_in, wi_struct, wf_here.
  - apply pi_vec, pi_struct, pf_in, pi_fst, pi_struct, pf_next, pf_next, pf_here.
Qed.
