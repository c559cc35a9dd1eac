(** C61: an application, two accepted proofs and forked runs of a step over them. *)
From Coq Require Import List Arith NArith ZArith Bool Lia Ring Field.
From Verif Require Import FieldDef ModDef GF ArithModel FFTModel SparseModel SparseSpec GadgetModel GadgetSpec EndoSpec EndoProofs TxzProofs
  PcdModel PcdSpec RecModel RecSpec RecProofs5 RegModel RegSpec AppModel AppSpec CompileModel CompileSpec Props_Reg Props_Rec Props_StepEx
  VerifyModel VerifySpec VerifySpec2 VerifyProofs VerifyProofs4 Props_Verify Props_VerifyEx AccSpec AccProofs AccProofs2 AccProofs3 Props_Acc.
Import ListNotations.
Open Scope f_scope.
Local Open Scope nat_scope.

(** the endoscalars of 37 elements, all different *)
Definition acc_bits (pb : F2161) : list bool := map (fun i => is_some (sqrt2161 (pb + fnat i)%F)) (seq 0 8).
Definition acc_beta (pb : F2161) : F2161 := lift_bits F2161 big_zeta (acc_bits pb) ((big_zeta + f1) + (big_zeta + f1))%F.
Section Ex.
Add Field FFu23 : (f_theory F2161).
Lemma bit_excl (v : F2161) : v <> f0 -> square v -> square (gen2161 * v)%F -> False.
Proof.
  intros Nv (s & Es) (t & Et). assert (Ns : s <> f0) by (intros ->; apply Nv; rewrite <- Es; ring).
  apply (sqrt2161_none gen2161); [vm_compute; reflexivity|]. exists (t / s)%F.
  transitivity ((t * t) / (s * s))%F; [field; exact Ns|]. rewrite Et, Es. field. exact Nv.
Qed.
Lemma acc_beta_ok pb : forallb (fun i => negb (feqb (pb + fnat i)%F f0)) (seq 0 8) = true ->
  is_beta false 8 gen2161 big_zeta pb (acc_beta pb) /\ forall b, is_beta false 8 gen2161 big_zeta pb b -> b = acc_beta pb.
Proof.
  intros Nz. assert (Z : forall i, i < 8 -> (pb + fnat i)%F <> f0).
  { intros i Hi E. rewrite forallb_forall in Nz. specialize (Nz i ltac:(apply in_seq; lia)). apply negb_true_iff in Nz. assert (feqb (pb + fnat i)%F f0 = true) by now apply feqb_true. congruence. }
  assert (Nb : forall i, i < 8 -> nth i (acc_bits pb) false = is_some (sqrt2161 (pb + fnat i)%F)).
  { intros i Hi. unfold acc_bits. rewrite (nth_indep _ false (is_some (sqrt2161 (pb + fnat 0)%F))) by (rewrite map_length, seq_length; exact Hi).
    rewrite (map_nth (fun i => is_some (sqrt2161 (pb + fnat i)%F))), seq_nth by exact Hi. reflexivity. }
  assert (Q : forall i, i < 8 -> bit_ok F2161 gen2161 pb i (nth i (acc_bits pb) false)).
  { intros i Hi. rewrite Nb by exact Hi. unfold bit_ok. destruct (sqrt2161 (pb + fnat i)%F) as [s|] eqn:E; cbn [is_some].
    - exists s. now apply sqrt2161_some.
    - destruct (gen2161_ok (pb + fnat i)%F) as [S|S]; [|exact S]. exfalso. now apply (sqrt2161_none _ E). }
  split; [exists (acc_bits pb); split; [reflexivity|]; split; [exact Q|reflexivity]|].
  intros b (bs & L & Hb & ->). unfold acc_beta. f_equal. apply (nth_ext _ _ false false); [exact L|]. intros i Hi. rewrite L in Hi.
  specialize (Hb i Hi). specialize (Q i Hi). cbn [bit_ok] in Hb. unfold bit_ok in Hb, Q.
  destruct (nth i bs false), (nth i (acc_bits pb) false); try reflexivity; exfalso; eapply (bit_excl _ (Z i Hi)); eassumption.
Qed.
End Ex.
Definition nodupz (l : list Z) : bool := (fix go l := match l with [] => true | a :: l' => negb (existsb (Z.eqb a) l') && go l' end) l.
Lemma nodupz_ok l : nodupz l = true -> NoDup l.
Proof.
  induction l as [|a l IH]; cbn; intros H; constructor; apply andb_true_iff in H; destruct H as [H1 H2].
  - intros I. apply negb_true_iff in H1. assert (existsb (Z.eqb a) l = true) by (apply existsb_exists; exists a; split; [exact I|apply Z.eqb_refl]). congruence.
  - apply IH. exact H2.
Qed.
Definition acc_pbs : list F2161 := map (fun k => l2161 (Z.of_nat k)) (seq 10 37).
Lemma acc_betas : many 37 (fun be : F2161 => exists pb, is_beta false 8 gen2161 big_zeta pb be /\ forall b, is_beta false 8 gen2161 big_zeta pb b -> b = be).
Proof.
  exists (map acc_beta acc_pbs). split.
  - apply (NoDup_map_inv v2161). apply nodupz_ok. vm_compute. reflexivity.
  - split; [unfold acc_pbs; rewrite !map_length, seq_length; lia|]. intros b Hb. apply in_map_iff in Hb. destruct Hb as (pb & <- & Hp). exists pb. apply acc_beta_ok.
    assert (T : forallb (fun pb : F2161 => forallb (fun i => negb (feqb (pb + fnat i)%F f0)) (seq 0 8)) acc_pbs = true) by (vm_compute; reflexivity).
    rewrite forallb_forall in T. now apply T.
Qed.

(** The proof of C54_ex as both children of a step.  All hypotheses of C61_children are
    met, with forked runs over it. *)
Example C61_ex : exists native nested (p : proof F2161 F97 (FieldMod F2161)) u, big_built native nested /\
  wf_proof (2 ^ 9) p /\ N.to_nat (pf_circuit_id p) < 2 ^ ta_S TA2161 /\ length (pf_left_header p) = 2 /\ length (pf_right_header p) = 2 /\ published p u /\
  l2161 8 <> f0 /\ ~ (l2161 8 = f1 /\ l2161 8 = f1) /\
  forked 9 4 5 5 big_b 8 gen2161 big_zeta (fun i => omega_j TA2161 (N.of_nat i)) (reg_rv TA2161 9 big_repr native)
    (shown TA2161 p u [l2161 12; l2161 8]) (shown TA2161 p u [l2161 12; l2161 8]) (polys_of p) (polys_of p).
Proof.
  destruct C54_ex as (native & nested & p & B & Wp & Id & Idb & V & Of & Ns). exists native, nested, p.
  assert (Lg : 4 * 2 ^ 9 <= length big_gens) by (unfold big_gens; rewrite repeat_length; apply Nat.leb_le; reflexivity).
  assert (Hc : N.to_nat (pf_circuit_id p) < 2 ^ ta_S TA2161) by (rewrite Id; exact Idb).
  destruct (often_claims _ _ _ _ _ _ _ _ _ _ _ _ _ _ _ _ _ _ _ _ _ _ _ _ _ _ _ _ _ _ _ _ _ _ _ _ _ _ _ _ B (le_n 1)
    (FieldMod F2161) (@feqb F2161) big_gens (fun a b => feqb_true F2161 a b) Lg p _ _ _ Wp Hc Of) as (_ & s & d & u & Es & Ed & _ & Pu & L1 & L2 & _).
  destruct (C54_sound _ _ _ _ _ _ _ _ _ _ _ _ _ _ _ _ _ _ _ _ _ _ _ _ _ _ _ _ _ _ _ _ _ _ _ _ _ _ _ _ B (le_n 1)
    (FieldMod F2161) (@feqb F2161) big_gens (fun a b => feqb_true F2161 a b) Lg p _ _ _ Wp Hc Of C34_big_wf) as (s' & d' & u' & Es' & Ed' & _ & Pu' & _ & R & _);
    [lia|lia|exact sqrt2161_some|exact sqrt2161_none|exact gen2161_ok|exact Ns|].
  destruct R as (cl & cr & oe & ie & q & e & u2 & _ & _ & _ & _ & _ & Ew & _ & SR).
  exists u'. split; [exact B|]. split; [exact Wp|]. split; [exact Hc|]. split; [exact L1|]. split; [exact L2|]. split; [exact Pu'|].
  split; [intros E; vm_compute in E; discriminate|]. split; [intros [E _]; vm_compute in E; discriminate|].
  assert (Po : pts_on big_b u').
  { apply write_ueq in Ew. destruct Ew as [Ep _]. intros f. rewrite <- Ep. eapply sr_points. exact SR. }
  apply (C61_accepted _ _ _ _ _ _ _ _ _ _ _ _ _ _ _ _ _ _ _ _ _ _ _ _ _ _ _ _ _ _ _ _ _ _ _ _ _ _ _ _ B (FieldMod F2161) (le_n 1)
    (@feqb F2161) big_gens (fun a b => feqb_true F2161 a b) Lg p p u' u' (l2161 8) [l2161 12] (l2161 8) [l2161 12]); try lia.
  - intros p' u0 s0 d0 [E|E]; injection E as -> -> -> ->; auto 6.
  - exists all2161. split; [exact all2161_nodup|]. split; [|auto]. unfold all2161. rewrite map_length, seq_length. apply Nat.leb_le. reflexivity.
  - exact acc_betas.
Qed.
(** and so C61_children applies to it: among what it gives, the proof's own folded claim *)
Example C61_ex_children : exists native nested (p : proof F2161 F97 (FieldMod F2161)) u, big_built native nested /\ published p u /\
  fsum (4 * 2 ^ 9) (fun k => (coeff_at (pf_a p) k * coeff_at (pf_b p) (4 * 2 ^ 9 - 1 - k))%F) = pf_c p /\
  (forall w, reg_wxy F2161 9 big_repr native w (pf_chal p Ch_x) (pf_chal p Ch_y) = Some (p_eval (4 * 2 ^ 9) (pf_registry_xy p) w)).
Proof.
  destruct C61_ex as (native & nested & p & u & B & Wp & Hc & L1 & L2 & Pu & N1 & N2 & FK). exists native, nested, p, u. split; [exact B|]. split; [exact Pu|].
  destruct (C61_children _ _ _ _ _ _ _ _ _ _ _ _ _ _ _ _ _ _ _ _ _ _ _ _ _ _ _ _ _ _ _ _ _ _ _ _ _ _ _ _ B (FieldMod F2161)
    p p u u [l2161 12] (l2161 8) [l2161 12] (l2161 8)) as [S _];
    [exact C34_big_wf|lia|lia|lia|lia|exact sqrt2161_some|exact sqrt2161_none|exact gen2161_ok|intros p' [->| ->]; auto|exact Pu|exact Pu|reflexivity|reflexivity|exact N1|exact N1|exact N2|exact FK|].
  destruct S as (_ & _ & S1 & _ & S2). split; [exact S1|exact S2].
Qed.
Print Assumptions C61_ex.
Print Assumptions C61_ex_children.
