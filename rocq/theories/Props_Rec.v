(** Recursion circuits: unified instance (C45), hash circuits (C46), collapse circuits
    (C47), instance polynomials of the children (C48), the step as a whole (C49) and
    the exactness of compute_v (C38). *)
From Coq Require Import List Arith NArith ZArith Bool Lia Ring Field.
From Verif Require Import FieldDef GF ArithModel GadgetModel GadgetSpec GadgetProofs Runs PointSpec EndoSpec EndoProofs TxzProofs TProofs
  SpongeModel SpongeSpec SpongeProofs FoldModel FoldSpec FoldProofs2 FoldProofs3 PcdModel PcdSpec PcdProofs2 TraceModel TraceProofs SatProofs
  Props_Arith Props_Sponge Props_Fold AppModel AppSpec
  RecModel RecSpec RecProofs RecProofs2 RecProofs3 RecProofs4 RecProofs5.
Import ListNotations.
Open Scope f_scope.
Local Open Scope nat_scope.

(** exactness of a circuit in wire semantics from the two directions *)
Lemma iff_of {F : Field} (p : G F F (list (elem F F) * option coverage)) (R : uvals F -> Prop) (out : uvals F -> list F) (set : list ufield) :
  (forall r, holds p r -> exists u, R u /\ r = (map wir (out u), None)) ->
  (forall u, R u -> okx F false p (covered false (out u) (fun _ => false) set)) ->
  forall r, holds p r <-> exists u, R u /\ r = (map wir (out u), None).
Proof.
  intros A B r. split; [apply A|]. intros (u & Hu & ->). destruct (B u Hu) as ([o c] & (Q1 & Q2) & H). cbn [fst snd] in *. subst. exact H.
Qed.
(** the honest run of a circuit: from every simulator state it succeeds with this
    output, and the returned coverage is the old one with [set] added *)
Definition honest_run {F : Field} (p : G F F (list (elem F F) * option coverage)) (out : list F) (cov : coverage) (set : list ufield) : Prop :=
  exists c, (forall f, c f = true <-> cov f = true \/ In f set) /\
    forall st, exists st', simulate p st = Some ((map hon out, Some c), st').
Lemma honest_of {F : Field} (p : G F F (list (elem F F) * option coverage)) out cov set :
  okx F true p (covered true out cov set) -> honest_run p out cov set.
Proof.
  intros ([o c0] & (Q1 & (c & Q2 & Q3)) & H). cbn [fst snd] in *. subst. exists c. split; [|exact H].
  intros f. rewrite Q3, orb_true_iff, existsb_exists. split; (intros [X|X]; [now left|right]).
  - destruct X as (g & G & E). destruct (ufield_eqb_spec f g); [now subst|discriminate].
  - exists f. split; [exact X|]. now destruct (ufield_eqb_spec f f).
Qed.

(** ** C46: hashes_1 and hashes_2 *)
Section C46.
Variable F : Field.
Variables (P : pparams F) (cb : F) (of_u : N -> F) (tag : list N) (log2 : nat).
Hypothesis WP : wf_params P.

(** hashes_1 accepts exactly: circuit ids that are roots of unity, the first half of
    the transcript ending in the stored sponge state, instance polynomial values of
    both children at y; it publishes the instance and the children's headers. *)
Theorem C46_hashes_1 : forall (l r : pvals F) (oe : ovals F), length (ov_sponge oe) = pp_T P ->
  (forall res, holds (hashes_1 F F 1%F false cb P of_u tag log2 (pre_of false l r) (oe_of false oe) None) res <->
     exists u, (pts_on cb u /\ hashes_1_rel P (tag_values F of_u tag) log2 l r oe u) /\
               res = (map wir (u_write u ++ pv_out l ++ pv_out r ++ [0%F]), None)) /\
  (forall u cov, pts_on cb u -> hashes_1_rel P (tag_values F of_u tag) log2 l r oe u ->
     (forall f, In f h1_set -> cov f = false) ->
     honest_run (hashes_1 F F 1%F true cb P of_u tag log2 (pre_of true l r) (oe_of true oe) (inst_of true u cov))
                (u_write u ++ pv_out l ++ pv_out r ++ [0%F]) cov h1_set).
Proof.
  intros l r oe L. split.
  - apply (iff_of _ (fun u => pts_on cb u /\ hashes_1_rel P (tag_values F of_u tag) log2 l r oe u) _ h1_set).
    + intros res H. apply hashes_1_fwd in H; auto. destruct H as (u & A & B & C). exists u. auto.
    + intros u [A B]. apply (hashes_1_bwd F cb P of_u tag log2 WP false l r oe u); auto.
  - intros u cov A B C. apply honest_of. apply (hashes_1_bwd F cb P of_u tag log2 WP true l r oe u cov); auto.
Qed.

(** hashes_2 accepts exactly the second half of the transcript, resumed from the
    stored sponge state. *)
Theorem C46_hashes_2 : forall (oe : ovals F), length (ov_sponge oe) = pp_T P ->
  (forall res, holds (hashes_2 F F 1%F false cb P (oe_of false oe) None) res <->
     exists u, (pts_on cb u /\ transcript_2 P u (ov_sponge oe)) /\ res = (map wir (u_write u ++ [0%F]), None)) /\
  (forall u cov, pts_on cb u -> transcript_2 P u (ov_sponge oe) -> (forall f, In f h2_set -> cov f = false) ->
     honest_run (hashes_2 F F 1%F true cb P (oe_of true oe) (inst_of true u cov)) (u_write u ++ [0%F]) cov h2_set).
Proof.
  intros oe L. split.
  - apply (iff_of _ (fun u => pts_on cb u /\ transcript_2 P u (ov_sponge oe)) _ h2_set).
    + intros res H. apply hashes_2_fwd in H; auto. destruct H as (u & A & B & C). exists u. auto.
    + intros u [A B]. apply (hashes_2_bwd F cb P WP false oe u); auto.
  - intros u cov A B C. apply honest_of. apply (hashes_2_bwd F cb P WP true oe u cov); auto.
Qed.
End C46.
Print Assumptions C46_hashes_1.
Print Assumptions C46_hashes_2.

(** Splitting the transcript over two circuits changes nothing: both halves around
    one sponge state say exactly that all eleven challenges come from a single
    uninterrupted transcript, and the state is determined by it. *)
Theorem C46_transcript : forall (F : Field) (P : pparams F) tagv (u : uvals F), wf_params P ->
  (transcript P tagv u <-> exists sponge, transcript_1 P tagv u sponge /\ transcript_2 P u sponge) /\
  (forall s s', transcript_1 P tagv u s -> transcript_1 P tagv u s' -> s = s').
Proof.
  intros F P tagv u WP. split; [|apply transcript_1_sponge]. apply transcript_split. apply WP.
Qed.
Print Assumptions C46_transcript.

(** ** C47: the collapse circuits; M = GroupSize, N = NumGroups *)
Theorem C47_inner : forall (F : Field) (cb : F) M (l r : pvals F) (oe : ovals F) (ie : list (list F)),
  Forall (fun x => length x = num_error_terms M) ie -> length ie <= length (ov_collapsed oe) ->
  (forall res, holds (inner_collapse F F 1%F false cb M (pre_of false l r) (oe_of false oe) (map (map wir) ie) None) res <->
     exists u, (pts_on cb u /\ inner_collapse_rel M l r oe ie u) /\ res = (map wir (u_write u ++ [0%F]), None)) /\
  (forall u cov, pts_on cb u -> inner_collapse_rel M l r oe ie u ->
     honest_run (inner_collapse F F 1%F true cb M (pre_of true l r) (oe_of true oe) (map (map hon) ie) (inst_of true u cov))
                (u_write u ++ [0%F]) cov []).
Proof.
  intros F cb M l r oe ie W L. split.
  - apply (iff_of _ (fun u => pts_on cb u /\ inner_collapse_rel M l r oe ie u) _ []).
    + intros res H. apply inner_fwd in H; auto. destruct H as (u & A & B & C). exists u. auto.
    + intros u [A B]. apply (inner_bwd F cb M false l r oe ie u); auto.
  - intros u cov A B. apply honest_of. apply (inner_bwd F cb M true l r oe ie u cov); auto.
Qed.
Print Assumptions C47_inner.

Theorem C47_outer : forall (F : Field) (cb : F) N (l r : pvals F) (oe : ovals F),
  pv_out l <> [] -> pv_out r <> [] -> length (ov_errs oe) = num_error_terms N -> length (ov_collapsed oe) = N ->
  (forall res, holds (outer_collapse F F 1%F false cb N (pre_of false l r) (oe_of false oe) None) res <->
     exists u, (pts_on cb u /\ outer_collapse_rel N l r oe u) /\ res = (map wir (u_write u ++ [0%F]), None)) /\
  (forall u cov, pts_on cb u -> outer_collapse_rel N l r oe u -> cov (FE Uc) = false ->
     honest_run (outer_collapse F F 1%F true cb N (pre_of true l r) (oe_of true oe) (inst_of true u cov))
                (u_write u ++ [0%F]) cov [FE Uc]).
Proof.
  intros F cb N l r oe Nl Nr Le Lc. split.
  - apply (iff_of _ (fun u => pts_on cb u /\ outer_collapse_rel N l r oe u) _ [FE Uc]).
    + intros res H. apply outer_fwd in H; auto. destruct H as (u & A & B & C). exists u. auto.
    + intros u [A B]. apply (outer_bwd F cb false N l r oe u); auto.
  - intros u cov A B C. apply honest_of. apply (outer_bwd F cb true N l r oe u cov); auto.
Qed.
Print Assumptions C47_outer.

(** Outside the base case the two circuits together fix c: it is the two-layer
    collapse of the children's claimed values with the stored error terms, which is
    the quantity C27_sound and C27_compose are about. *)
Theorem C47_chain : forall (F : Field) M N (l r : pvals F) (oe : ovals F) (ie : list (list F)) (u : uvals F),
  length ie = N -> length (ov_collapsed oe) = N -> ~ is_base l r ->
  inner_collapse_rel M l r oe ie u -> outer_collapse_rel N l r oe u ->
  uv_el u Umu <> 0%F /\ uv_el u Umu' <> 0%F /\
  uv_el u Uc = weigh N (finv (uv_el u Umu')) (uv_el u Umu' * uv_el u Unu')%F
    (entry N (ov_errs oe) (collapsed M N (uv_el u Umu) (uv_el u Unu) ie (map (ky_of l r oe) (seq 0 (N * M))))).
Proof.
  intros F M N l r oe ie u Li Lc NB (M0 & HI) (M1 & HO). split; [exact M0|]. split; [exact M1|].
  destruct HO as [HO|HO]; [contradiction|]. rewrite HO. unfold weigh.
  apply fsum_ext. intros i Hi. apply fsum_ext. intros j Hj. f_equal. unfold entry. destruct (Nat.eqb_spec i j); [|reflexivity].
  rewrite collapsed_nth by exact Hi. rewrite HI by lia. unfold weigh.
  apply fsum_ext. intros a Ha. apply fsum_ext. intros b Hb. f_equal. unfold entry. destruct (a =? b); [|reflexivity].
  rewrite group_nth by exact Ha.
  rewrite nth_indep with (d' := ky_of l r oe 0%nat) by (rewrite map_length, seq_length; exact Ha). rewrite map_nth, seq_nth by exact Ha.
  rewrite nth_indep with (d' := ky_of l r oe 0%nat) by (rewrite map_length, seq_length; nia). rewrite map_nth, seq_nth by nia. reflexivity.
Qed.
Print Assumptions C47_chain.

(** In the base case (both children end in the trivial header suffix) c is free:
    every value is accepted. *)
Theorem C47_base : forall (F : Field) (cb : F) N (l r : pvals F) (oe : ovals F) (u : uvals F),
  pv_out l <> [] -> pv_out r <> [] -> length (ov_errs oe) = num_error_terms N -> length (ov_collapsed oe) = N ->
  pts_on cb u -> is_base l r -> uv_el u Umu' <> 0%F ->
  holds (outer_collapse F F 1%F false cb N (pre_of false l r) (oe_of false oe) None) (map wir (u_write u ++ [0%F]), None).
Proof.
  intros F cb N l r oe u Nl Nr Le Lc O B M0. apply C47_outer; auto. exists u. split; [|reflexivity]. split; [exact O|]. split; auto.
Qed.
Print Assumptions C47_base.

(** ** C38: compute_v accepts exactly the instances whose v is the combination of
    the recomputed folded quotient and the claimed evaluations *)
Section C38c.
Variable F : Field.
Variables (cb : F) (k M N nbits : nat) (gen : F) (fsqrt : F -> option F) (zeta : F) (omega : icid -> F).
Theorem C38_circuit : forall (l r : pvals F) (q : queryout F) (e : evalout F),
  22 <= M * N ->
  (forall v s : F, fsqrt v = Some s -> (s * s)%F = v) -> (forall v : F, fsqrt v = None -> ~ square v) -> (forall v : F, square v \/ square (gen * v)%F) ->
  (forall res, holds (compute_v F F 1%F false cb k M N nbits gen fsqrt zeta omega (pre_of false l r) (query_of F false q) (eval_of F false e) None) res <->
     exists u, (pts_on cb u /\ compute_v_rel false cb k M N nbits gen zeta omega l r q e u) /\ res = (map wir (u_write u ++ [0%F]), None)) /\
  (forall u cov, pts_on cb u -> compute_v_rel true cb k M N nbits gen zeta omega l r q e u -> cov (FE Uv) = false ->
     honest_run (compute_v F F 1%F true cb k M N nbits gen fsqrt zeta omega (pre_of true l r) (query_of F true q) (eval_of F true e) (inst_of true u cov))
                (u_write u ++ [0%F]) cov [FE Uv]).
Proof.
  intros l r q e L S1 S2 S3. assert (HM : 0 < M) by (destruct M; lia).
  assert (HL : length (build_claims (eval_source q)) <= M * N) by exact L.
  split.
  - apply (iff_of _ (fun u => pts_on cb u /\ compute_v_rel false cb k M N nbits gen zeta omega l r q e u) _ [FE Uv]).
    + intros res H. apply compute_v_fwd in H; auto. destruct H as (u & A & B & C). exists u. auto.
    + intros u [A B]. apply (compute_v_bwd F cb k M N nbits gen fsqrt zeta omega l r q e HM HL S1 S2 S3 false u); auto.
  - intros u cov A B C. apply honest_of. apply (compute_v_bwd F cb k M N nbits gen fsqrt zeta omega l r q e HM HL S1 S2 S3 true u cov); auto.
Qed.
End C38c.
Print Assumptions C38_circuit.

(** ** C48: the three instance polynomials taken of each child are the native
    instance polynomials ([ky_eval]) of what the child's circuits publish: the
    application circuit its three headers, the four circuits with the plain instance
    the instance and a zero, hashes_1 the instance, the grandchildren's headers and a
    zero. *)
Theorem C48_child_ky : forall (F : Field) (c : pvals F) (y : F),
  ck_application (child_k c y) = ky_eval (pv_left c ++ pv_right c ++ pv_out c) y /\
  ck_unified (child_k c y) = ky_eval (u_write (pv_uni c) ++ [0%F]) y /\
  (forall gl gr : pvals F, pv_left c = pv_out gl -> pv_right c = pv_out gr ->
     ck_bridge (child_k c y) = ky_eval (u_write (pv_uni c) ++ pv_out gl ++ pv_out gr ++ [0%F]) y).
Proof.
  intros F c y. unfold child_k. cbn [ck_application ck_unified ck_bridge]. rewrite !ky_ok. split; [reflexivity|]. split; [reflexivity|].
  intros gl gr -> ->. rewrite ky_ok. reflexivity.
Qed.
Print Assumptions C48_child_ky.

(** and two different published vectors of the same length give the same value for
    at most as many y as the vector is long *)
Theorem C48_binding : forall (F : Field) (o o' ys : list F), length o = length o' -> NoDup ys -> S (length o) <= length ys ->
  (forall y, In y ys -> k_of o y = k_of o' y) -> o = o'.
Proof.
  intros F o o' ys L ND Ly H.
  assert (U : forall i, nth i (1%F :: rev o) 0%F = nth i (1%F :: rev o') 0%F).
  { apply (poly_unique F (1%F :: rev o) (1%F :: rev o') ys ND); cbn [length]; rewrite ?rev_length; try lia. exact H. }
  rewrite <- (rev_involutive o), <- (rev_involutive o'). f_equal.
  apply (nth_ext _ _ 0%F 0%F); [now rewrite !rev_length|]. intros i _. exact (U (S i)).
Qed.
Print Assumptions C48_binding.

(** ** C49: the five circuits of a step *)
(** what a step establishes about the published instance *)
Record step_rel {F : Field} (honest : bool) (P : pparams F) (tagv : list F) (log2 : nat) (cb : F) (k M N nbits : nat) (gen zeta : F) (omega : icid -> F)
       (l r : pvals F) (oe : ovals F) (ie : list (list F)) (q : queryout F) (e : evalout F) (u : uvals F) : Prop := mk_step_rel {
  sr_points : pts_on cb u;
  sr_left : (pv_cid l ^ (2 ^ log2) = 1)%F;
  sr_right : (pv_cid r ^ (2 ^ log2) = 1)%F;
  sr_ky_left : ov_left oe = child_k l (uv_el u Uy);
  sr_ky_right : ov_right oe = child_k r (uv_el u Uy);
  sr_transcript : transcript P tagv u;
  sr_inner : inner_collapse_rel M l r oe ie u;
  sr_outer : outer_collapse_rel N l r oe u;
  sr_v : compute_v_rel honest cb k M N nbits gen zeta omega l r q e u }.

Section C49.
Variable F : Field.
Variables (P : pparams F) (cb : F) (of_u : N -> F) (tag : list N) (log2 k M N nbits : nat) (gen : F) (fsqrt : F -> option F) (zeta : F) (omega : icid -> F).
Hypothesis WP : wf_params P.
(** all five circuits accept and publish the instance values [us] *)
Definition accepts (l r : pvals F) (oe : ovals F) (ie : list (list F)) (q : queryout F) (e : evalout F) (us : list F) : Prop :=
  let pre := pre_of false l r in let o := oe_of false oe in
  let plain := (map wir (us ++ [0%F]), None) in
  holds (hashes_1 F F 1%F false cb P of_u tag log2 pre o None) (map wir (us ++ pv_out l ++ pv_out r ++ [0%F]), None) /\
  holds (hashes_2 F F 1%F false cb P o None) plain /\
  holds (inner_collapse F F 1%F false cb M pre o (map (map wir) ie) None) plain /\
  holds (outer_collapse F F 1%F false cb N pre o None) plain /\
  holds (compute_v F F 1%F false cb k M N nbits gen fsqrt zeta omega pre (query_of F false q) (eval_of F false e) None) plain.

Lemma wir_inj : forall a b : list F, map wir a = map wir b -> a = b.
Proof. induction a as [|x a IH]; intros [|y b] H; try discriminate; auto. cbn in H. injection H as -> H. f_equal. auto. Qed.
Lemma published (u : uvals F) us t : ((map wir (us ++ t), None) : list (elem F F) * option coverage) = (map wir (u_write u ++ t), None) -> u_write u = us.
Proof.
  intros H. set (w := u_write u) in *. clearbody w. injection H as H. apply wir_inj in H.
  now apply app_inv_tail in H.
Qed.

(** Together the circuits accept exactly when the step relation holds: one transcript
    yields every challenge and the stored state is its midpoint. *)
Theorem C49_step : forall (l r : pvals F) (oe : ovals F) (ie : list (list F)) (q : queryout F) (e : evalout F) (us : list F),
  length (ov_sponge oe) = pp_T P -> Forall (fun x => length x = num_error_terms M) ie -> length ie <= length (ov_collapsed oe) ->
  pv_out l <> [] -> pv_out r <> [] -> length (ov_errs oe) = num_error_terms N -> length (ov_collapsed oe) = N -> 22 <= M * N ->
  (forall v s : F, fsqrt v = Some s -> (s * s)%F = v) -> (forall v : F, fsqrt v = None -> ~ square v) -> (forall v : F, square v \/ square (gen * v)%F) ->
  (accepts l r oe ie q e us <->
   exists u, u_write u = us /\ transcript_1 P (tag_values F of_u tag) u (ov_sponge oe) /\
     step_rel false P (tag_values F of_u tag) log2 cb k M N nbits gen zeta omega l r oe ie q e u).
Proof.
  intros l r oe ie q e us Ls Wi Li Nl Nr Le Lc L22 S1 S2 S3.
  destruct (C46_hashes_1 F P cb of_u tag log2 WP l r oe Ls) as [H1 _].
  destruct (C46_hashes_2 F P cb WP oe Ls) as [H2 _].
  destruct (C47_inner F cb M l r oe ie Wi Li) as [H3 _].
  destruct (C47_outer F cb N l r oe Nl Nr Le Lc) as [H4 _].
  destruct (C38_circuit F cb k M N nbits gen fsqrt zeta omega l r q e L22 S1 S2 S3) as [H5 _].
  unfold accepts. cbv zeta. rewrite H1, H2, H3, H4, H5. split.
  - intros ((u1 & (O1 & R1) & E1) & (u2 & (O2 & R2) & E2) & (u3 & (O3 & R3) & E3) & (u4 & (O4 & R4) & E4) & (u5 & (O5 & R5) & E5)).
    apply published in E1, E2, E3, E4, E5; auto.
    assert (X2 : ueq u2 u1) by (apply write_ueq; congruence). assert (X3 : ueq u3 u1) by (apply write_ueq; congruence).
    assert (X4 : ueq u4 u1) by (apply write_ueq; congruence). assert (X5 : ueq u5 u1) by (apply write_ueq; congruence).
    apply (hashes_2_ext F _ _ _ _ X2) in R2. apply (inner_ext F _ _ _ _ _ _ _ X3) in R3. apply (outer_ext F _ _ _ _ _ _ X4) in R4.
    apply (compute_v_ext F _ _ _ _ _ _ _ _ _ _ _ _ _ _ _ X5) in R5.
    destruct R1 as (A & B & C & D & T). exists u1. split; [exact E1|]. split; [exact T|].
    constructor; auto. apply (transcript_split F P ltac:(apply WP)). exists (ov_sponge oe). auto.
  - intros (u & <- & T1 & [O A B C D T R3 R4 R5]).
    apply (transcript_split F P ltac:(apply WP)) in T. destruct T as (sp & T1' & T2).
    rewrite (transcript_1_sponge F P _ _ _ _ T1' T1) in T2.
    repeat split; exists u; (split; [split; auto|reflexivity]). repeat split; auto.
Qed.

(** ** C45: the unified instance *)
(** Each of the 21 fields is the responsibility of exactly one of the five circuits. *)
Definition circuit_sets : list (list ufield) := [h1_set; h2_set; []; [FE Uc]; [FE Uv]].
Definition mem (f : ufield) (s : list ufield) : bool := existsb (ufield_eqb f) s.
Theorem C45_partition : forall f : ufield, length (filter (mem f) circuit_sets) = 1 /\ In f uall.
Proof. intros [[]|[]]; vm_compute; intuition. Qed.

(** The honest step: threading the instance through the five circuits, as
    fuse/_11_circuits.rs does, starting from the empty coverage, every circuit
    succeeds, each publishes the same instance, and the coverage is complete at the
    end and at no earlier point. *)
Theorem C45_complete : forall (l r : pvals F) (oe : ovals F) (ie : list (list F)) (q : queryout F) (e : evalout F) (u : uvals F),
  length (ov_sponge oe) = pp_T P -> Forall (fun x => length x = num_error_terms M) ie -> length ie <= length (ov_collapsed oe) ->
  pv_out l <> [] -> pv_out r <> [] -> length (ov_errs oe) = num_error_terms N -> length (ov_collapsed oe) = N -> 22 <= M * N ->
  (forall v s : F, fsqrt v = Some s -> (s * s)%F = v) -> (forall v : F, fsqrt v = None -> ~ square v) -> (forall v : F, square v \/ square (gen * v)%F) ->
  transcript_1 P (tag_values F of_u tag) u (ov_sponge oe) ->
  step_rel true P (tag_values F of_u tag) log2 cb k M N nbits gen zeta omega l r oe ie q e u ->
  exists c1 c2 c3 c4 c5,
    let pre := pre_of true l r in let o := oe_of true oe in let plain := map hon (u_write u ++ [0%F]) in
    (forall st, exists st', simulate (hashes_1 F F 1%F true cb P of_u tag log2 pre o (inst_of true u cov_default)) st
                            = Some ((map hon (u_write u ++ pv_out l ++ pv_out r ++ [0%F]), Some c1), st')) /\
    (forall st, exists st', simulate (hashes_2 F F 1%F true cb P o (inst_of true u c1)) st = Some ((plain, Some c2), st')) /\
    (forall st, exists st', simulate (inner_collapse F F 1%F true cb M pre o (map (map hon) ie) (inst_of true u c2)) st = Some ((plain, Some c3), st')) /\
    (forall st, exists st', simulate (outer_collapse F F 1%F true cb N pre o (inst_of true u c3)) st = Some ((plain, Some c4), st')) /\
    (forall st, exists st', simulate (compute_v F F 1%F true cb k M N nbits gen fsqrt zeta omega pre (query_of F true q) (eval_of F true e) (inst_of true u c4)) st
                            = Some ((plain, Some c5), st')) /\
    assert_complete c1 = false /\ assert_complete c2 = false /\ assert_complete c3 = false /\ assert_complete c4 = false /\ assert_complete c5 = true.
Proof.
  intros l r oe ie q e u Ls Wi Li Nl Nr Le Lc L22 S1 S2 S3 T1 [O A B C D T R3 R4 R5].
  apply (transcript_split F P ltac:(apply WP)) in T. destruct T as (sp & T1' & T2). rewrite (transcript_1_sponge F P _ _ _ _ T1' T1) in T2.
  destruct (proj2 (C46_hashes_1 F P cb of_u tag log2 WP l r oe Ls) u cov_default O ltac:(repeat split; auto) ltac:(reflexivity)) as (c1 & Q1 & X1).
  assert (N1 : forall c s (c' : coverage), (forall f, c' f = true <-> c f = true \/ In f s) -> forall f, c f = false -> ~ In f s -> c' f = false).
  { intros c s c' Q f Hc Hs. destruct (c' f) eqn:E; auto. apply Q in E. destruct E; [congruence|contradiction]. }
  assert (V1 : forall f, ~ In f h1_set -> c1 f = false) by (intros f; apply (N1 _ _ _ Q1); reflexivity).
  destruct (proj2 (C46_hashes_2 F P cb WP oe Ls) u c1 O T2) as (c2 & Q2 & X2).
  { intros f Hf. apply V1. intros K. cbn in Hf, K. repeat (destruct Hf as [<-|Hf]; [intuition discriminate|]). destruct Hf. }
  destruct (proj2 (C47_inner F cb M l r oe ie Wi Li) u c2 O R3) as (c3 & Q3 & X3).
  assert (V2 : forall f, ~ In f h1_set -> ~ In f h2_set -> c2 f = false) by (intros f Z; apply (N1 _ _ _ Q2); auto).
  assert (V3 : forall f, ~ In f h1_set -> ~ In f h2_set -> c3 f = false) by (intros f Z Z'; apply (N1 _ _ _ Q3); auto).
  destruct (proj2 (C47_outer F cb N l r oe Nl Nr Le Lc) u c3 O R4) as (c4 & Q4 & X4); [apply V3; cbn; intuition discriminate|].
  assert (V4 : c4 (FE Uv) = false) by (apply (N1 _ _ _ Q4); [apply V3|]; cbn; intuition discriminate).
  destruct (proj2 (C38_circuit F cb k M N nbits gen fsqrt zeta omega l r q e L22 S1 S2 S3) u c4 O R5 V4) as (c5 & Q5 & X5).
  assert (NC : forall c : coverage, c (FE Uv) = false -> assert_complete c = false).
  { intros c Hc. unfold assert_complete. apply not_true_iff_false. intros K. rewrite forallb_forall in K. specialize (K (FE Uv)).
    rewrite Hc in K. discriminate K. cbn. tauto. }
  exists c1, c2, c3, c4, c5. cbv zeta.
  split; [exact X1|]. split; [exact X2|]. split; [exact X3|]. split; [exact X4|]. split; [exact X5|].
  split; [apply NC; apply V1; cbn; intuition discriminate|]. split; [apply NC; apply V2; cbn; intuition discriminate|].
  split; [apply NC; apply V3; cbn; intuition discriminate|]. split; [apply NC; exact V4|].
  unfold assert_complete. apply forallb_forall. intros f Hf. apply Q5. rewrite Q4, Q3, Q2, Q1.
  cbn in Hf. repeat (destruct Hf as [<-|Hf]; [cbn; tauto|]). destruct Hf.
Qed.
End C49.
Print Assumptions C49_step.
Print Assumptions C45_partition.
Print Assumptions C45_complete.

(** The builder: a second value for a field fails; finishing fails exactly when a
    field set by this circuit was already covered, and otherwise adds the fields set. *)
Theorem C45_builder : forall (F : Field) (b : ubuilder F F) (f : uel) (g : upt) (cb : F) (v : elem F F) (c : coverage),
  (sl_value (ub_el b f) <> None -> read_el F F b f = GErr /\ receive_el F F b f = GErr /\ provide_el F F b f v = GErr) /\
  (sl_value (ub_pt b g) <> None -> receive_pt F F 1%F cb b g = GErr) /\
  (sl_value (ub_pt b g) = None -> forall i, ub_inst b = Some i -> ui_pt i g = None -> forall st, simulate (receive_pt F F 1%F cb b g) st = None) /\
  (cover_all b uall c = None <-> exists x, was_set b x = true /\ c x = true) /\
  (forall c', cover_all b uall c = Some c' -> forall x, c' x = (c x || was_set b x)%bool).
Proof.
  intros F b f g cb v c.
  assert (E : (exists x, was_set b x = true /\ c x = true) \/ (forall x, was_set b x = true -> c x = false)).
  { destruct (existsb (fun x => was_set b x && c x)%bool uall) eqn:E.
    - left. apply existsb_exists in E. destruct E as (x & _ & E). apply andb_true_iff in E. eauto.
    - right. intros x H. destruct (c x) eqn:C; auto. exfalso.
      assert (X : existsb (fun x => (was_set b x && c x)%bool) uall = true).
      { apply existsb_exists. exists x. split; [apply uall_all|now rewrite H, C]. }
      congruence. }
  assert (N : forall fs c0, (exists x, In x fs /\ was_set b x = true /\ c0 x = true) -> cover_all b fs c0 = None).
  { induction fs as [|y fs IH]; intros c0 (x & H & W & C); [destruct H|]. cbn [cover_all]. destruct H as [->|H].
    - now rewrite W, C.
    - destruct (was_set b y); [destruct (c0 y); [reflexivity|]|]; apply IH; exists x; repeat split; auto. destruct (ufield_eqb y x); auto. }
  split; [|split; [|split; [|split]]].
  - intros H. unfold read_el, receive_el, provide_el. destruct (sl_value (ub_el b f)); [auto|congruence].
  - intros H. unfold receive_pt. destruct (sl_value (ub_pt b g)); [auto|congruence].
  - intros H i Hi Hg st. unfold receive_pt, alloc_pt. rewrite H, Hi. unfold lift1, p_alloc. cbn. rewrite Hg. reflexivity.
  - split.
    + intros H. destruct E as [E|E]; [exact E|]. destruct (cover_ok F b uall c uall_nodup) as (c' & K & _); [intros; auto|]. congruence.
    + intros (x & W & C). apply N. exists x. split; [apply uall_all|auto].
  - intros c' H x. destruct E as [(y & W & C)|E].
    + rewrite N in H; [discriminate|]. exists y. split; [apply uall_all|auto].
    + destruct (cover_ok F b uall c uall_nodup) as (c'' & K & Q); [intros; auto|]. rewrite H in K. injection K as <-.
      now rewrite Q, existsb_uall.
Qed.
Print Assumptions C45_builder.
