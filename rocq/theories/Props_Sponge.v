(** Property theorems C34 (sponge) and C35 (transcript). *)
From Coq Require Import List Arith ZArith NArith Bool Lia Ring Field.
From Verif Require Import FieldDef GF ArithModel GadgetModel GadgetSpec GadgetProofs Runs SpongeModel SpongeSpec SpongeProofs SpongeHash Pasta.
Import ListNotations.
Open Scope f_scope.

(** ** C34 *)
(** the permutation circuit is exactly Poseidon, at 3 gates per s-box *)
Theorem C34_permutation : forall (F : Field) (P : pparams F) v, wf_params P -> length v = pp_T P ->
  let g := (3 * (2 * (pp_FULL P / 2) * pp_T P + pp_PARTIAL P))%nat in
  (forall r, holds (permutation F F 1 false P (map wir v)) r <-> r = map wir (poseidon P v)) /\
  (forall s, simulate (permutation F F 1 true P (map hon v)) s = Some (map hon (poseidon P v), bump s 0 g (2 * g))).
Proof.
  intros F P v W L g. split.
  - exact (r_permutation F false P v W L).
  - exact (r_permutation F true P v W L).
Qed.
Print Assumptions C34_permutation.

(** a caller's whole session on a new sponge *)
Definition session (F : Field) (wit : bool) (P : pparams F) (ops : list (sop F F)) :=
  gbind (sp_new F F 1 wit P) (sp_run F F P (permutation F F 1 wit P) ops).

(** any history of absorbs, squeezes and save/resumes: the constraints determine
    the result, which is that of the duplex, and honest executions are accepted
    with one permutation's cost for each permutation of the duplex *)
Theorem C34_duplex : forall (F : Field) (P : pparams F) (wit : bool) (ops : list (dop F)), wf_params P ->
  exists v g c,
    (if wit then forall s, simulate (session F true P (map (lift_op F true) ops)) s = Some (v, bump s 0 g c)
     else forall r, holds (session F false P (map (lift_op F false) ops)) r <-> r = v) /\
    match d_run (pp_RATE P) (poseidon P) ops (d_new (pp_T P)) with
    | inl e => v = inl e
    | inr (outs, d) => (exists m, v = inr (map (el wit) outs, m)) /\
        g = (d_perms d * (3 * (2 * (pp_FULL P / 2) * pp_T P + pp_PARTIAL P)))%nat /\ c = (2 * g)%nat
    end.
Proof.
  intros F P wit ops W. pose proof W as (_ & R & _).
  assert (HP : forall v, length v = pp_T P -> length (poseidon P v) = pp_T P /\
    runs wit (permutation F F 1 wit P (map (el wit) v)) (map (el wit) (poseidon P v)) (perm_gates F P) (2 * perm_gates F P)).
  { intros v L. split; [now apply poseidon_length|now apply r_permutation]. }
  destruct (rep_new F wit P R) as [RN RR].
  destruct (run_ok F wit P _ (poseidon P) _ _ R HP ops _ _ RR) as (v & g & c & H & E).
  exists v, g, c. split.
  - assert (S : runs wit (session F wit P (map (lift_op F wit) ops)) v g c).
    { unfold session. eapply runs_bind0; [exact RN|exact H]. }
    destruct wit; exact S.
  - destruct (d_run (pp_RATE P) (poseidon P) ops (d_new (pp_T P))) as [e|[outs d]]; auto.
    destruct E as (m & -> & _ & Hg & Hc). cbn [d_perms d_new] in Hg, Hc. split; [eauto|]. unfold perm_gates in *. lia.
Qed.
Print Assumptions C34_duplex.

(** one-shot use is the textbook sponge: n > 0 inputs cut into blocks of [rate]
    (the last may be shorter), then any number of outputs *)
Theorem C34_hash : forall (F : Field) rate width (pi : list F -> list F) xs m,
  (1 <= rate <= width)%nat -> (forall v, length v = width -> length (pi v) = width) -> xs <> [] ->
  exists full last d, xs = concat (full ++ [last]) /\ Forall (fun b => length b = rate) full /\ (1 <= length last <= rate)%nat /\
    d_run rate pi (map DAbsorb xs ++ repeat DSqueeze m) (d_new width)
    = inr (map (hash_out rate width pi (full ++ [last])) (seq 0 m), d).
Proof.
  intros F rate width pi xs m R L N. destruct (blocks_exist F rate width R xs N) as (full & last & -> & Fu & Hl).
  destruct (hash_ok F rate width pi R L full last m Fu Hl) as (d & E). exists full, last, d. auto.
Qed.
Print Assumptions C34_hash.

(** saving and resuming at any point where it is allowed changes nothing: later
    outputs, final state and the number of permutations are the same *)
Theorem C34_save_resume : forall (F : Field) rate width (pi : list F -> list F) ops1 ops2 outs d d',
  (1 <= rate)%nat ->
  d_run rate pi ops1 (d_new width) = inr (outs, d) -> d_save_resume pi d = inr d' ->
  d_run rate pi (ops1 ++ DSaveResume :: DSqueeze :: ops2) (d_new width)
  = d_run rate pi (ops1 ++ DSqueeze :: ops2) (d_new width).
Proof.
  intros F rate width pi ops1 ops2 outs d d' R. revert outs. generalize (d_new (F:=F) width).
  induction ops1 as [|o ops1 IH]; intros d0 outs H K.
  - cbn in H. inversion H; subst. cbn [app d_run]. rewrite K.
    assert (E : d_squeeze rate pi d' = d_squeeze rate pi d).
    { unfold d_save_resume in K. destruct (d_squeezing d) eqn:S; [discriminate|]. destruct (Nat.eqb_spec (d_pos d) 0) as [|N]; [discriminate|].
      inversion K. unfold d_squeeze. rewrite S. rewrite (proj2 (Nat.eqb_neq _ _) N). unfold d_permute at 1 2. cbn [d_squeezing d_pos].
      rewrite (proj2 (Nat.eqb_neq 0 rate)) by lia. reflexivity. }
    rewrite E. reflexivity.
  - destruct o; cbn [app d_run] in *.
    + eapply IH; eauto.
    + destruct (d_squeeze rate pi d0) as [e|[x d1]]; [discriminate|].
      destruct (d_run rate pi ops1 d1) as [e|[vs d2]] eqn:E; [discriminate|]. inversion H; subst.
      rewrite (IH _ _ E K). reflexivity.
    + destruct (d_save_resume pi d0) as [e|d1]; [discriminate|]. eapply IH; eauto.
Qed.
Print Assumptions C34_save_resume.

(** errors, by the history before the call: squeezing fails exactly on an unused
    sponge; saving fails exactly on an unused sponge or when the last call was not
    an absorb *)
Theorem C34_errors : forall (F : Field) rate width (pi : list F -> list F) ops outs d,
  (1 <= rate)%nat -> d_run rate pi ops (d_new width) = inr (outs, d) ->
  (d_squeeze rate pi d = inl ENothingToSqueeze <-> ops = []) /\
  (forall e, d_squeeze rate pi d = inl e -> e = ENothingToSqueeze) /\
  (d_save_resume pi d = inl ENothingAbsorbed <-> ops = []) /\
  (d_save_resume pi d = inl EAlreadyInSqueezeMode <-> ops <> [] /\ forall x, last ops DSqueeze <> DAbsorb x) /\
  ((exists d', d_save_resume pi d = inr d') <-> exists pre x, ops = pre ++ [DAbsorb x]).
Proof.
  intros F rate width pi ops outs d R H.
  assert (ST : (ops = [] /\ d = d_new width) \/
    (exists pre x, ops = pre ++ [DAbsorb x] /\ d_squeezing d = false /\ d_pos d <> 0%nat) \/
    (ops <> [] /\ (forall x, last ops DSqueeze <> DAbsorb x) /\ d_squeezing d = true)).
  { revert outs d H. induction ops as [|o ops IH] using rev_ind; intros outs d H; [left; inversion H; auto|]. right.
    assert (K : forall ops d0 outs d, d_run rate pi (ops ++ [o]) d0 = inr (outs, d) ->
      exists outs1 d1 outs2, d_run rate pi ops d0 = inr (outs1, d1) /\ d_run rate pi [o] d1 = inr (outs2, d)).
    { clear. induction ops as [|o' ops IH]; intros d0 outs d H.
      - exists [], d0, outs. auto.
      - destruct o'; cbn [app d_run] in H |- *.
        + eapply IH; eauto.
        + destruct (d_squeeze rate pi d0) as [e|[x d1]]; [discriminate|].
          destruct (d_run rate pi (ops ++ [o]) d1) as [e|[vs d2]] eqn:E; [discriminate|]. inversion H; subst.
          destruct (IH _ _ _ E) as (o1 & d3 & o2 & E1 & E2). rewrite E1. eauto 6.
        + destruct (d_save_resume pi d0) as [e|d1]; [discriminate|]. eapply IH; eauto. }
    destruct (K _ _ _ _ H) as (outs1 & d1 & outs2 & E1 & E2). destruct o as [x| |]; cbn [d_run] in E2.
    - left. exists ops, x. split; [auto|]. inversion E2. unfold d_absorb.
      destruct (d_squeezing d1); [cbn; auto|]. destruct (Nat.eqb (d_pos d1) rate); cbn; auto.
    - right. split; [destruct ops; discriminate|]. split; [intros x; rewrite last_last; discriminate|].
      unfold d_squeeze in E2. destruct (d_squeezing d1); [|destruct (Nat.eqb (d_pos d1) 0); [discriminate|]].
      + destruct (Nat.eqb (d_pos d1) rate); inversion E2; reflexivity.
      + inversion E2. reflexivity.
    - right. split; [destruct ops; discriminate|]. split; [intros x; rewrite last_last; discriminate|].
      unfold d_save_resume in E2. destruct (d_squeezing d1); [discriminate|]. destruct (Nat.eqb (d_pos d1) 0); [discriminate|].
      inversion E2. reflexivity. }
  unfold d_squeeze, d_save_resume.
  destruct ST as [[-> ->]|[(pre & x & -> & S & N)|(NE & L & S)]].
  - cbn [d_new d_squeezing d_pos Nat.eqb]. split; [tauto|]. split; [congruence|]. split; [tauto|]. split.
    + split; [discriminate|]. intros [X _]. congruence.
    + split; [intros (d' & X); discriminate|]. intros (pre & x & X). destruct pre; discriminate.
  - rewrite S, (proj2 (Nat.eqb_neq _ _) N). assert (Q : pre ++ [DAbsorb x] <> []) by (destruct pre; discriminate).
    split; [split; [discriminate|congruence]|]. split; [discriminate|]. split; [split; [discriminate|congruence]|]. split.
    + split; [discriminate|]. intros [_ X]. exfalso. apply (X x). apply last_last.
    + split; eauto.
  - rewrite S. split; [split; [discriminate|congruence]|]. split; [destruct (Nat.eqb (d_pos d) rate); discriminate|].
    split; [split; [discriminate|congruence]|]. split; [tauto|]. split.
    + intros (d' & X). discriminate.
    + intros (pre & x & ->). exfalso. apply (L x). apply last_last.
Qed.
Print Assumptions C34_errors.

(** additive absorption has no padding: a trailing zero that fits the last block
    is invisible (the caveat documented in transcript.rs:24-37) *)
Theorem C34_length_separation_refuted : forall (F : Field) rate width (pi : list F -> list F) full last i,
  (1 <= rate <= width)%nat -> (length last < rate)%nat ->
  full ++ [last ++ [0]] <> full ++ [last] /\
  hash_out rate width pi (full ++ [last ++ [0]]) i = hash_out rate width pi (full ++ [last]) i.
Proof.
  intros F rate width pi full last i RW L. split; [|now apply hash_zero].
  intros E. apply app_inj_tail in E. destruct E as [_ E]. apply (f_equal (@length F)) in E. rewrite app_length in E. cbn in E. lia.
Qed.
Print Assumptions C34_length_separation_refuted.

(** a width 3, rate 2 instance over F97 *)
Definition ex_params : pparams F97 := mk_pparams F97 3 2 2 1 5%Z
  (map (map l97) [[1; 2; 3]; [4; 5; 6]; [7; 8; 9]]%Z) (map (map l97) [[2; 1; 1]; [1; 2; 1]; [1; 1; 3]]%Z).
Example C34_ex_wf : wf_params ex_params.
Proof. unfold wf_params. cbn. repeat split; auto. Qed.
Example C34_ex :
  match simulate (session F97 true ex_params [OAbsorb (hon (l97 5)); OAbsorb (hon (l97 6)); OAbsorb (hon (l97 7));
                                              OSqueeze; OSqueeze; OSqueeze; OAbsorb (hon (l97 1)); OSaveResume; OSqueeze])
                 (mk_simst 0 0 0),
        d_run 2 (poseidon ex_params) [DAbsorb (l97 5); DAbsorb (l97 6); DAbsorb (l97 7);
                                      DSqueeze; DSqueeze; DSqueeze; DAbsorb (l97 1); DSaveResume; DSqueeze] (d_new 3) with
  | Some (inr (vs, _), s), inr (os, d) =>
      map (fun e => v97 (ew _ _ e)) vs = map v97 os /\ length os = 4%nat /\ d_perms d = 4%nat /\ num_gates s = 84%nat
  | _, _ => False
  end.
Proof. vm_compute. auto. Qed.

(** ** C35 *)
(** different tags, whatever is absorbed afterwards: some position inside both tag
    prefixes differs, so the absorbed sequences differ, even up to trailing zeros.
    [of_u] is the field's u64/u128 conversion, injective when the modulus exceeds
    128 bits *)
Theorem C35_tags_separate : forall (F : Field) (of_u : N -> F),
  (forall a b, (a < 2 ^ 128)%N -> (b < 2 ^ 128)%N -> of_u a = of_u b -> a = b) ->
  forall t t' s s', Forall (fun b => (b < 256)%N) t -> Forall (fun b => (b < 256)%N) t' ->
  (N.of_nat (length t) < 2 ^ 64)%N -> (N.of_nat (length t') < 2 ^ 64)%N -> t <> t' ->
  exists i, (i < length (tag_values F of_u t))%nat /\ (i < length (tag_values F of_u t'))%nat /\
    nth i (tag_values F of_u t ++ s) 0 <> nth i (tag_values F of_u t' ++ s') 0.
Proof. intros F of_u inj t t' s s'. now apply tags_differ. Qed.
Print Assumptions C35_tags_separate.

(** the transcript is the sponge that first absorbs the tag: every later history
    gives the outputs of the duplex on tag ++ history *)
Theorem C35_tag_absorbed : forall (F : Field) (P : pparams F) (of_u : N -> F) (wit : bool) tag (ops : list (dop F)), wf_params P ->
  let prog w := gbind (tr_new F F 1 w P (permutation F F 1 w P) of_u tag)
                      (sp_run F F P (permutation F F 1 w P) (map (lift_op F w) ops)) in
  exists v g c,
    (if wit then forall s, simulate (prog true) s = Some (v, bump s 0 g c) else forall r, holds (prog false) r <-> r = v) /\
    match d_run (pp_RATE P) (poseidon P) (map DAbsorb (tag_values F of_u tag) ++ ops) (d_new (pp_T P)) with
    | inl e => v = inl e
    | inr (outs, _) => exists m, v = inr (map (el wit) outs, m)
    end.
Proof.
  intros F P of_u wit tag ops W prog. pose proof W as (_ & R & _).
  assert (HP : forall v, length v = pp_T P -> length (poseidon P v) = pp_T P /\
    runs wit (permutation F F 1 wit P (map (el wit) v)) (map (el wit) (poseidon P v)) (perm_gates F P) (2 * perm_gates F P)).
  { intros v L. split; [now apply poseidon_length|now apply r_permutation]. }
  assert (K : forall vs m d, rep F wit P m d -> exists m' g c,
    runs wit (absorb_constants F F 1 wit P (permutation F F 1 wit P) vs m) m' g c /\
    rep F wit P m' (fold_left (d_absorb (pp_RATE P) (poseidon P)) vs d)).
  { induction vs as [|v vs IH]; intros m d RR.
    - do 3 eexists. split; [apply runs_ret|exact RR].
    - cbn [absorb_constants fold_left]. destruct (absorb_ok F wit P _ (poseidon P) _ _ R HP m d v RR) as (m1 & R1 & g & c & H & _).
      destruct (IH _ _ R1) as (m' & g' & c' & H' & R'). exists m'. do 2 eexists. split; [|exact R'].
      eapply runs_bind0; [apply r_constant|]. eapply runs_bind; [exact H|exact H']. }
  destruct (rep_new F wit P R) as [RN RR].
  destruct (K (tag_values F of_u tag) _ _ RR) as (m1 & g1 & c1 & H1 & R1).
  destruct (run_ok F wit P _ (poseidon P) _ _ R HP ops _ _ R1) as (v & g & c & H & E).
  exists v, (0 + g1 + g)%nat, (0 + c1 + c)%nat. split.
  - assert (S : runs wit (prog wit) v (0 + g1 + g) (0 + c1 + c)).
    { unfold prog, tr_new. eapply runs_bind; [|exact H]. eapply runs_bind; [exact RN|exact H1]. }
    destruct wit; exact S.
  - rewrite d_run_absorb.
    destruct (d_run (pp_RATE P) (poseidon P) ops (fold_left (d_absorb (pp_RATE P) (poseidon P)) (tag_values F of_u tag) (d_new (pp_T P))))
      as [e|[outs d]]; auto.
    destruct E as (m & -> & _). eauto.
Qed.
Print Assumptions C35_tag_absorbed.

(** a resumed transcript cannot be turned back before a challenge was drawn, and
    afterwards it is the squeezed sponge *)
Theorem C35_resume_guard : forall (F : Field) (P : pparams F) perm (t : resumed F F),
  (forall m, holds (rs_into F F t) m <-> rs_squeezed F F t = true /\ m = rs_sponge F F t) /\
  (forall state, rs_squeezed F F (tr_resume F F P state) = false) /\
  (forall v t', holds (rs_challenge F F P perm t) (inr (v, t')) <->
     rs_squeezed F F t' = true /\ holds (sp_squeeze F F P perm (rs_sponge F F t)) (inr (v, rs_sponge F F t'))).
Proof.
  intros F P perm t. split; [|split].
  - intros m. unfold rs_into. destruct (rs_squeezed F F t); cbn; intuition congruence.
  - reflexivity.
  - intros v t'. unfold rs_challenge. rewrite holds_bind. split.
    + intros ([e|[w m]] & H & K); cbn in K; [discriminate|]. inversion K; subst. cbn. auto.
    + intros [S H]. exists (inr (v, rs_sponge F F t')). split; auto. cbn. destruct t' as [m b]. cbn in *. now subst.
Qed.
Print Assumptions C35_resume_guard.

(** the Pallas base field meets the injectivity hypothesis *)
Example C35_ex_inj : forall a b, (a < 2 ^ 128)%N -> (b < 2 ^ 128)%N -> lFp (Z.of_N a) = lFp (Z.of_N b) -> a = b.
Proof.
  intros a b A B E. apply (f_equal vFp) in E. unfold vFp, lFp in E. rewrite !val_mk in E.
  assert (K : forall x, (x < 2 ^ 128)%N -> (Z.of_N x mod p_pallas = Z.of_N x)%Z).
  { intros x X. apply Z.mod_small. split; [lia|]. apply N2Z.inj_lt in X. eapply Z.lt_trans; [exact X|reflexivity]. }
  rewrite !K in E by auto. lia.
Qed.
Example C35_ex : map vFp (tag_values Fp (fun n => lFp (Z.of_N n)) [114; 97; 103; 117]%N) = [4; 1969709426]%Z /\
  length (tag_values Fp (fun n => lFp (Z.of_N n)) (repeat 1%N 33)) = 4%nat.
Proof. vm_compute. auto. Qed.
