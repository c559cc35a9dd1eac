(** The prover's quotient and accumulated polynomials. *)
From Coq Require Import List Arith Bool Lia Ring Field.
From Verif Require Import FieldDef ModDef ArithModel ArithProofs SparseModel SparseSpec SparseProofs SparseProofs2 FoldSpec FoldProofs2 EscModel EscSpec EscProofs
  PcdModel RecModel RecSpec QvModel.
Import ListNotations.
Open Scope f_scope.
Local Open Scope nat_scope.

Lemma p_order_ok {T : Type} (e : evalout T) : p_order e = eval_write e.
Proof. reflexivity. Qed.

Section Quot.
  Variable F : Field.
  Add Field FFqv : (f_theory F).
  Open Scope f_scope.
  Local Notation poly := (poly F).
  Variable NC : nat.

  Lemma drain_seg : forall fuel (bs : poly) it, wf 0 NC bs -> it_ok F bs it -> (ci_bb it <= length bs)%nat -> (length (seg F bs it) <= fuel)%nat ->
    drain fuel bs it = seg F bs it.
  Proof.
    induction fuel as [|k IH]; intros bs it W H1 H2 L.
    - destruct (seg F bs it); [reflexivity|cbn in L; lia].
    - cbn [drain]. pose proof (next_ok F NC bs it W H1 H2) as H. destruct (ci_next bs it) as [it' r]. destruct H as (A & B & C).
      destruct (seg F bs it) as [|c s] eqn:Es; cbn [deque_step] in C; injection C as C1 C2; subst r.
      + reflexivity.
      + f_equal. rewrite C1. apply (IH bs it'); auto. rewrite <- C1. cbn in L. lia.
  Qed.
  Lemma coeffs_of_ok (p : poly) : wf 0 NC p -> coeffs_of NC p = dense NC p.
  Proof.
    intros W. unfold coeffs_of. assert (E : seg F p (iter_coeffs NC p) = dense NC p) by (unfold seg, dense; simpl; now rewrite Nat.sub_0_r).
    rewrite <- E. apply drain_seg; auto.
    - split; simpl; [intros; lia|]. intros j s d Hj Ej. apply nth_error_Some_lt in Ej. lia.
    - rewrite E. unfold dense. rewrite map_length, seq_length. lia.
  Qed.
  Lemma peval_dense (p : poly) x : wf 0 NC p -> peval (dense NC p) x = p_eval NC p x.
  Proof.
    intros W. rewrite (eval_ok F) by exact W. rewrite peval_fsum. unfold dense at 1. rewrite map_length, seq_length. apply fsum_ext. intros i Hi.
    f_equal. unfold dense. rewrite (nth_indep _ 0 (coeff_at p 0)) by (rewrite map_length, seq_length; lia). rewrite (map_nth (coeff_at p)), seq_nth by lia. reflexivity.
  Qed.

  (** ** folding the quotient iterators *)
  Definition hs (al acc : F) (l : list F) : F := fold_left (fun a c => al * a + c) l acc.
  Lemma hs_lin al t : forall (l m : list F) a b, length l = length m ->
    hs al (a + t * b) (map (fun p => fst p + t * snd p) (combine l m)) = hs al a l + t * hs al b m.
  Proof.
    induction l as [|c l IH]; intros [|d m] a b L; cbn in L; try lia; [reflexivity|]. unfold hs in *. cbn [combine map fold_left fst snd].
    rewrite <- IH by lia. f_equal. ring.
  Qed.
  Lemma hs_fold al : forall (l : list F) acc, hs al acc l = hfold (S (length l)) al (fun i => nth i (acc :: l) 0).
  Proof.
    intros l. induction l as [|c l IH] using rev_ind; intros acc.
    - unfold hs, hfold. cbn. ring.
    - rewrite app_length. cbn [length]. replace (length l + 1)%nat with (S (length l)) by lia. rewrite hfold_S.
      unfold hs in *. rewrite fold_left_app. cbn [fold_left]. rewrite IH. f_equal.
      + f_equal. apply hfold_ext. intros i Hi. destruct i; [reflexivity|]. cbn [nth]. now rewrite app_nth1 by lia.
      + cbn [nth]. rewrite app_nth2, Nat.sub_diag by lia. reflexivity.
  Qed.
  Lemma heads_ok al : forall rest acc, Forall (fun it : list F => it <> []) rest ->
    f_heads al acc rest = Some (hs al acc (map (fun it => hd 0 it) rest), map (@tl F) rest).
  Proof.
    induction rest as [|[|c it] rest IH]; intros acc H; inversion H; subst; [reflexivity|congruence|].
    cbn [f_heads]. rewrite IH by auto. reflexivity.
  Qed.
  Lemma loop_ok al : forall first rest, Forall (fun it => length it = length first) rest ->
    exists cs, f_loop al first rest = Some cs /\ length cs = length first /\
      forall u, peval (rev cs) u = hs al (peval (rev first) u) (map (fun it => peval (rev it) u) rest).
  Proof.
    induction first as [|v first IH]; intros rest H.
    - exists []. split; [reflexivity|]. split; [reflexivity|]. intros u. cbn.
      assert (G : forall l acc, acc = 0 -> Forall (fun it : list F => length it = 0%nat) l -> hs al acc (map (fun it => peval (rev it) u) l) = 0).
      { clear. induction l as [|it l IH]; intros acc -> H; [reflexivity|]. inversion H; subst. destruct it; [|discriminate].
        unfold hs in *. cbn. apply IH; auto. ring. }
      symmetry. apply G; [reflexivity|exact H].
    - cbn [f_loop]. rewrite heads_ok.
      2:{ eapply Forall_impl; [|exact H]. intros it E ->. cbn in E. lia. }
      destruct (IH (map (@tl F) rest)) as (cs & E & L & P).
      { apply Forall_forall. intros it Hi. apply in_map_iff in Hi. destruct Hi as (it' & <- & Hi). eapply Forall_forall in H; [|exact Hi].
        destruct it'; cbn in *; lia. }
      rewrite E. cbn [option_map]. eexists. split; [reflexivity|]. split; [cbn; lia|]. intros u.
      assert (R : forall c (l : list F), peval (rev (c :: l)) u = peval (rev l) u + u ^ (length l) * c).
      { intros c l. cbn [rev]. rewrite peval_app, rev_length. cbn. ring. }
      rewrite !R, P, L. rewrite <- hs_lin by now rewrite !map_length. f_equal.
      clear - H R. induction rest as [|it rest IHr]; [reflexivity|]. inversion H; subst. cbn [map combine]. rewrite IHr by auto. f_equal.
      destruct it as [|c it]; [cbn in *; lia|]. cbn [hd tl fst snd]. rewrite R. cbn in H2. injection H2 as ->. reflexivity.
  Qed.

  (** ** the quotient polynomial *)
  Lemma iters_ok : forall (qs : list (poly * F)), (0 < NC)%nat -> Forall (fun q => wf 0 NC (fst q)) qs ->
    exists its quots, f_iters NC qs = Some its /\ Forall (fun it => length it = (NC - 1)%nat) its /\ length quots = length qs /\
      its = map (@rev F) quots /\
      forall i u, (i < length qs)%nat -> let '(p, x) := nth i qs ([], 0) in
        p_eval NC p u = peval (nth i quots []) u * (u - x) + p_eval NC p x.
  Proof.
    induction qs as [|[p x] qs IH]; intros HN H.
    - exists [], []. repeat split; auto. intros i u Hi. cbn in Hi. lia.
    - inversion H as [|? ? Hp Hq]; subst. cbn [fst] in Hp. destruct (IH HN Hq) as (its & quots & E & L & Lq & R & V).
      assert (Hne : dense NC p <> []) by (unfold dense; destruct NC; [lia|discriminate]).
      destruct (factor_ok F (dense NC p) x Hne) as (q & _ & E2 & Lp & P).
      exists (rev q :: its), (q :: quots). cbn [f_iters]. rewrite (coeffs_of_ok p Hp), E2, E.
      assert (LD : length (dense NC p) = NC) by (unfold dense; now rewrite map_length, seq_length).
      split; [reflexivity|]. split; [constructor; [rewrite rev_length; lia|exact L]|]. split; [cbn; lia|]. split; [cbn; now rewrite R|].
      intros i u Hi. destruct i as [|i]; cbn [nth].
      + rewrite <- !(peval_dense p) by exact Hp. apply P.
      + apply V. cbn in Hi. lia.
  Qed.
  Lemma quotient_ok al (qs : list (poly * F)) : (0 < NC)%nat -> qs <> [] -> Forall (fun q => wf 0 NC (fst q)) qs ->
    exists f quots, quotient_poly NC al qs = Some f /\ wf 0 NC f /\ length quots = length qs /\
      (forall u, p_eval NC f u = hfold (length qs) al (fun i => peval (nth i quots []) u)) /\
      forall i u, (i < length qs)%nat -> let '(p, x) := nth i qs ([], 0) in
        p_eval NC p u = peval (nth i quots []) u * (u - x) + p_eval NC p x.
  Proof.
    intros HN Hne H. destruct (iters_ok qs HN H) as (its & quots & E & L & Lq & R & V). unfold quotient_poly. rewrite E.
    destruct quots as [|q0 quots]; [destruct qs; [congruence|cbn in Lq; lia]|]. cbn [map] in R. subst its.
    inversion L as [|? ? L0 Lr]; subst. destruct (loop_ok al (rev q0) (map (@rev F) quots)) as (cs & Ec & Lc & P).
    { eapply Forall_impl; [|exact Lr]. intros it ->. symmetry. exact L0. }
    rewrite Ec. destruct (from_coeffs_ok F NC (rev cs)) as (f & Ef & Wf & Cf & _). { rewrite rev_length. lia. }
    exists f, (q0 :: quots). split; [exact Ef|]. split; [exact Wf|]. split; [exact Lq|]. split; [|exact V].
    intros u. transitivity (peval (rev cs) u).
    - rewrite (eval_ok F) by exact Wf. rewrite peval_fsum. replace NC with (length (rev cs) + (NC - length (rev cs)))%nat at 1 by (rewrite rev_length; lia).
      rewrite fsum_split. rewrite (fsum_zero F (NC - length (rev cs)))
        by (intros k _; rewrite Cf, nth_overflow by (rewrite rev_length in *; lia); ring).
      rewrite (fsum_ext F _ _ (fun i => nth i (rev cs) 0 * u ^ i)) by (intros i _; now rewrite Cf). ring.
    - rewrite P, rev_involutive, map_map. rewrite (map_ext _ (fun q => peval q u)) by (intros q; now rewrite rev_involutive).
      rewrite hs_fold, map_length, <- Lq. cbn [length]. apply hfold_ext. intros i Hi. destruct i; [reflexivity|]. cbn [nth].
      rewrite <- (map_nth (fun q => peval q u) quots []). apply nth_indep. rewrite map_length. lia.
  Qed.

  (** the value f takes away from the opened points *)
  Definition opened (u : F) (qs : list (poly * F)) : list (F * F * F) := map (fun q => (p_eval NC (fst q) u, p_eval NC (fst q) (snd q), snd q)) qs.
  Lemma quotient_value al (qs : list (poly * F)) : (0 < NC)%nat -> qs <> [] -> Forall (fun q => wf 0 NC (fst q)) qs ->
    exists f, quotient_poly NC al qs = Some f /\ wf 0 NC f /\
      forall u, ~ In u (map snd qs) -> p_eval NC f u = fold_quotients al u (opened u qs).
  Proof.
    intros HN Hne H. destruct (quotient_ok al qs HN Hne H) as (f & quots & E & W & L & P & V). exists f. split; [exact E|]. split; [exact W|].
    intros u Hu. rewrite P. unfold fold_quotients, opened. rewrite map_length. apply hfold_ext. intros i Hi. specialize (V i u Hi).
    rewrite (nth_indep _ (0, 0, 0) ((fun q => (p_eval NC (fst q) u, p_eval NC (fst q) (snd q), snd q)) ([], 0))) by now rewrite map_length.
    rewrite (map_nth (fun q => (p_eval NC (fst q) u, p_eval NC (fst q) (snd q), snd q))). destruct (nth i qs ([], 0)) as [p x] eqn:En. cbn [fst snd].
    assert (u - x <> 0). { intros Z. apply Hu. apply (proj1 (fsub_eq_0 F u x)) in Z. apply in_map_iff. exists (p, x). split; [symmetry; exact Z|]. rewrite <- En. now apply nth_In. }
    rewrite V. field. assumption.
  Qed.

  (** ** the accumulated polynomial *)
  Lemma p_acc_ok {C : Type} (beta : F) : forall (l : list (poly * C)) acc cms, wf 0 NC acc -> Forall (fun q => wf 0 NC (fst q)) l ->
    exists p, p_acc NC beta acc cms l = Some (p, cms ++ map snd l) /\ wf 0 NC p /\
      forall k, coeff_at p k = hfold (S (length l)) beta (fun i => coeff_at (nth i (acc :: map fst l) []) k).
  Proof.
    induction l as [|[q c] l IH]; intros acc cms Wa Wl.
    - exists acc. cbn. rewrite app_nil_r. split; [reflexivity|]. split; [exact Wa|]. intros k. unfold hfold. cbn. ring.
    - inversion Wl as [|? ? Wq Wl']; subst. cbn [fst] in Wq. cbn [p_acc].
      destruct (SparseProofs.scale_ok F 0%nat NC beta acc Wa) as (Ws & Cs). destruct (SparseProofs.add_ok F NC _ q Ws Wq) as (a' & Ea & Wa' & Ca). rewrite Ea.
      destruct (IH a' (cms ++ [c]) Wa' Wl') as (p & E & Wp & Cp). exists p. rewrite E, <- app_assoc. split; [reflexivity|]. split; [exact Wp|].
      intros k. rewrite Cp. cbn [length map fst]. unfold hfold. rewrite (fsum_S_first F (S (length l))), (fsum_S_first F (length l)), (fsum_S_first F (length l)).
      cbn [nth]. rewrite Ca, Cs. replace (S (length l) - 1 - 0)%nat with (length l) by lia. replace (S (S (length l)) - 1 - 0)%nat with (S (length l)) by lia.
      replace (S (S (length l)) - 1 - 1)%nat with (length l) by lia.
      rewrite (fsum_ext F (length l) (fun i => beta ^ (S (S (length l)) - 1 - S (S i)) * coeff_at (nth i (map fst l) []) k)
                 (fun i => beta ^ (S (length l) - 1 - S i) * coeff_at (nth i (map fst l) []) k))
        by (intros i _; f_equal; f_equal; lia).
      cbn [fpow]. ring.
  Qed.
  Lemma eval_comb (n : nat) (beta u : F) (a : nat -> poly) (p : poly) : wf 0 NC p -> (forall i, (i < n)%nat -> wf 0 NC (a i)) ->
    (forall k, coeff_at p k = hfold n beta (fun i => coeff_at (a i) k)) ->
    p_eval NC p u = hfold n beta (fun i => p_eval NC (a i) u).
  Proof.
    intros W Wa C. rewrite (eval_ok F) by exact W. unfold hfold in *.
    rewrite (fsum_ext F NC _ (fun k => fsum n (fun i => beta ^ (n - 1 - i) * (coeff_at (a i) k * u ^ k)))).
    - rewrite fsum_swap. apply fsum_ext. intros i Hi. rewrite (eval_ok F) by auto. rewrite <- fsum_scale. reflexivity.
    - intros k _. rewrite C, <- fsum_scale_r. apply fsum_ext. intros i _. ring.
  Qed.
  Lemma commit_comb {E : FMod F} (gens : list E) (n : nat) (beta : F) (a : nat -> poly) (p : poly) (cms : nat -> E) : (NC <= length gens)%nat -> wf 0 NC p ->
    (forall i, (i < n)%nat -> wf 0 NC (a i) /\ p_commit NC gens (a i) = Some (cms i)) ->
    (forall k, coeff_at p k = hfold n beta (fun i => coeff_at (a i) k)) ->
    p_commit NC gens p = Some (msum n (fun i => mscale (beta ^ (n - 1 - i)) (cms i))).
  Proof.
    intros Hg W Ha C. rewrite (commit_ok F NC E gens p W Hg). f_equal.
    rewrite (msum_ext F E NC _ (fun k => msum n (fun i => mscale (beta ^ (n - 1 - i)) (mscale (coeff_at (a i) k) (nth k gens m0))))).
    - rewrite msum_swap. apply msum_ext. intros i Hi. destruct (Ha i Hi) as (Wi & Ei). rewrite (commit_ok F NC E gens (a i) Wi Hg) in Ei. injection Ei as <-.
      now rewrite msum_scale.
    - intros k _. rewrite C. unfold hfold. generalize (nth k gens (@m0 F E)). intros g. generalize (n - 1)%nat. intros m. clear - m.
      induction n as [|n' IH]; cbn [fsum msum]; [apply mscale_0|]. rewrite mscale_addl, IH, mscale_mul. reflexivity.
  Qed.
End Quot.
