(** Proofs for C51: the rows and constraints emitted by generic circuit code
    mean what the code's constraint relation says. *)
From Coq Require Import List Arith NArith Lia Bool.
From Verif Require Import FieldDef ArithModel ArithSpec ArithProofs GadgetModel GadgetSpec CircModel CircSpec
  CircProofs SProofs SyProofs2 TraceProofs CompileModel CompileSpec ParSpec ParProofs.
Import ListNotations.
Local Open Scope nat_scope.

Section Comp.
  Context {F : Field}.
  Add Field FFcp : (f_theory F).

  (** a position that carries a value: not one of the SYSTEM wires *)
  Definition rwire (E : list F) (w : wref) (v : F) : Prop :=
    match w with WOne => v = f1 | WVar i => 4 <= i /\ nth_error E i = Some v end.
  Definition rres (E : list F) := Forall2 (erel (F := F) (rwire E) true).
  Definition ext (env E : list F) : Prop := exists t, E = env ++ t.
  Lemma ext_refl env : ext env env. Proof. exists []. now rewrite app_nil_r. Qed.
  Lemma ext_app env t E : ext (env ++ t) E -> ext env E.
  Proof. intros [u ->]. exists (t ++ u). now rewrite app_assoc. Qed.
  Lemma rwire_lookup env w v : rwire env w v -> lookup f1 env w = v.
  Proof. destruct w as [|i]; cbn; [now intros ->|]. intros [_ H]. now apply nth_error_nth. Qed.
  Lemma rwire_at env t i v E : 4 <= length env -> nth_error t i = Some v -> ext (env ++ t) E ->
    rwire E (WVar (length env + i)) v.
  Proof.
    intros L H [u ->]. cbn. split; [lia|]. rewrite <- app_assoc, nth_error_app2 by lia.
    replace (length env + i - length env) with i by lia. rewrite nth_error_app1; [exact H|].
    apply nth_error_Some. now rewrite H.
  Qed.
  Lemma lrel_gains (RW : wref -> F -> Prop) (lc : list (lcall F wref)) (lc' : list (lcall F F)) : Forall2 (lrel RW) lc lc' -> gains lc = gains lc'.
  Proof.
    unfold gains. induction 1 as [|x y l l' Hx _ IH]; [reflexivity|]. cbn [map lprod fold_right].
    destruct Hx; cbn [map lprod fold_right] in *; unfold lprod in *; cbn [fold_right]; now rewrite IH.
  Qed.
  Lemma lrel_firstn (RW : wref -> F -> Prop) (lc : list (lcall F wref)) (lc' : list (lcall F F)) i : Forall2 (lrel RW) lc lc' ->
    Forall2 (lrel RW) (firstn i lc) (firstn i lc').
  Proof. intros H. revert i. induction H; intros [|i]; cbn; constructor; auto. Qed.
  Lemma call_rel env (x : lcall F wref) (y : lcall F F) : lrel (rwire env) x y -> call_sum (lookup (f1 : F) env) x = call_sum (fun w => w) y.
  Proof.
    intros H. destruct H as [w w' c H|c|w w' H|w w' H|ts ts' H]; cbn [call_sum]; try rewrite (rwire_lookup _ _ _ H); auto.
    induction H as [|[a b] [a' b'] m m' [Ha Hb] _ IH]; [reflexivity|]. cbn [fst snd map lsum fold_right] in *.
    unfold lsum in *. cbn [fold_right]. rewrite IH. cbn [fst snd]. now rewrite (rwire_lookup _ _ _ Ha), Hb.
  Qed.
  Lemma lrel_nth env (lc : list (lcall F wref)) (lc' : list (lcall F F)) i : Forall2 (lrel (rwire env)) lc lc' ->
    match nth_error lc i with Some op => call_sum (lookup (f1 : F) env) op | None => f0 end =
    match nth_error lc' i with Some op => call_sum (fun w => w) op | None => f0 end.
  Proof. intros H. revert i. induction H; intros [|i]; cbn; auto. now apply call_rel. Qed.
  Lemma lrel_lin env (lc : list (lcall F wref)) (lc' : list (lcall F F)) : Forall2 (lrel (rwire env)) lc lc' ->
    lin_spec (lookup (f1 : F) env) lc = lin_spec (fun w => w) lc'.
  Proof.
    intros H. unfold lin_spec. rewrite (ParProofs.Forall2_length H). apply (fsum_ext F). intros i Hi.
    rewrite (lrel_nth env lc lc' i H). now rewrite (lrel_gains _ _ _ (lrel_firstn _ _ _ i H)).
  Qed.

  (** circuit code next to its run on values, in every environment that extends
      the present one *)
  Definition agree (p1 : G F wref (list (elem F wref))) (p2 : G F F (list (elem F F))) (env : list F) : Prop :=
    4 <= length env /\ forall E, ext env E -> grel (rwire E) true (rres E) p1 p2.
  Lemma agree_gate w1 w2 k1 k2 env a b c d : agree (GGate w1 k1) (GGate w2 k2) env ->
    let n := length env in
    agree (k1 (WVar n) (WVar (S n)) (WVar (S (S n))) (WVar (S (S (S n))))) (k2 a b c d) (env ++ [a; b; c; d]).
  Proof.
    intros [L H] n. split; [rewrite app_length; lia|]. intros E X. specialize (H E (ext_app _ _ _ X)).
    inversion H as [| | |? ? ? ? _ K| | | ]; subst; try discriminate. subst n.
    replace (S (S (S (length env)))) with (length env + 3) by lia.
    replace (S (S (length env))) with (length env + 2) by lia.
    replace (S (length env)) with (length env + 1) by lia.
    replace (length env) with (length env + 0) at 1 by lia.
    apply K; eapply rwire_at; eauto; reflexivity.
  Qed.
  Lemma agree_alloc w1 w2 k1 k2 env v : agree (GAlloc w1 k1) (GAlloc w2 k2) env ->
    agree (k1 (WVar (length env))) (k2 v) (env ++ [v]).
  Proof.
    intros [L H]. split; [rewrite app_length; lia|]. intros E X. specialize (H E (ext_app _ _ _ X)).
    inversion H as [| | | |? ? ? ? _ K| | ]; subst; try discriminate.
    replace (length env) with (length env + 0) by lia. apply K. eapply rwire_at; eauto; reflexivity.
  Qed.
  Lemma agree_add l1 l2 k1 k2 env : agree (GAdd l1 k1) (GAdd l2 k2) env ->
    let v := lin_spec (fun w => w) l2 in
    lin_spec (lookup f1 env) l1 = v /\ agree (k1 (WVar (length env))) (k2 v) (env ++ [v]).
  Proof.
    intros [L H] v. split.
    - specialize (H env (ext_refl env)). inversion H; subst; try discriminate. now apply lrel_lin.
    - split; [rewrite app_length; lia|]. intros E X. specialize (H E (ext_app _ _ _ X)).
      inversion H as [| | | | |? ? ? ? _ K| ]; subst; try discriminate.
      replace (length env) with (length env + 0) by lia. apply K. eapply rwire_at; eauto; reflexivity.
  Qed.
  Lemma agree_enf l1 l2 k1 k2 env : agree (GEnf l1 k1) (GEnf l2 k2) env ->
    lin_spec (lookup f1 env) l1 = lin_spec (fun w => w) l2 /\ agree k1 k2 env.
  Proof.
    intros [L H]. split.
    - specialize (H env (ext_refl env)). inversion H; subst; try discriminate. now apply lrel_lin.
    - split; [exact L|]. intros E X. specialize (H E X). inversion H; subst; try discriminate. assumption.
  Qed.
  Lemma rres_lookup E r1 r2 : rres E r1 r2 -> map (lookup f1 E) (map (ew F wref) r1) = map (ew F F) r2.
  Proof. induction 1 as [|x y l l' Hx _ IH]; [reflexivity|]. cbn [map]. rewrite IH. f_equal. now apply rwire_lookup, Hx. Qed.

  Definition row_ok (r : F * F * F * F) : Prop :=
    let '(a, b, c, d) := r in fmul a b = c /\ fmul c d = f0.
  Definition row_at (val : nat -> kind -> nat -> F) (i : nat) : F * F * F * F :=
    (val 0 KA i, val 0 KB i, val 0 KC i, val 0 KD i).
  Definition half (av : option F) : bool := match av with Some _ => true | None => false end.

  (** from rows to the relation *)
  Lemma sem_holds (val : nat -> kind -> nat -> F) (one : one_val val = f1) :
    forall p1 p2 env g av r1, agree p1 p2 env ->
    let body := fst (compile p1 (length env)) in
    let r := sem val body 0 1 g av env in
    snd (compile p1 (length env)) = Some r1 ->
    (forall i, g <= i < g + length (rows (half av) body) -> row_ok (row_at val i)) ->
    Forall (fun v => v = f0) (sm_own r) ->
    exists r2, holds p2 r2 /\ map (lookup f1 (sm_env r)) (map (ew F wref) r1) = map (ew F F) r2.
  Proof.
    induction p1 as [a| |w k IH|w k IH|lc k IH|lc k IH]; intros p2 env g av r1 Hag; cbv zeta.
    - destruct Hag as [L H]. cbn [compile fst snd sem sm_own sm_env]. intros E Hr Ho. inversion E; subst.
      specialize (H env (ext_refl env)). inversion H as [? a2 R| | | | | | ]; subst; try discriminate.
      exists a2. split; [reflexivity|]. now apply rres_lookup.
    - discriminate.
    - destruct p2 as [|  |w2 k2| | | ];
        try (destruct Hag as [_ H]; specialize (H env (ext_refl env)); inversion H; discriminate).
      cbn [compile]. destruct (match w with Some t => t | None => _ end) as [[[a b] c] d]. cbn [fst snd rows length sem].
      intros E Hr Ho.
      set (va := val 0 KA g) in *. set (vb := val 0 KB g) in *. set (vc := val 0 KC g) in *. set (vd := val 0 KD g) in *.
      pose proof (agree_gate _ _ _ _ _ va vb vc vd Hag) as Hag'. cbv zeta in Hag'.
      specialize (IH _ _ _ _ _ _ (S g) av r1 Hag').
      rewrite app_length in IH. cbn [length] in IH. rewrite Nat.add_comm in IH. cbn [Nat.add] in IH.
      destruct (IH E) as (r2 & Hh & Hm).
      + intros i Hi. apply Hr. lia.
      + exact Ho.
      + exists r2. split; [|exact Hm]. cbn [holds]. exists va, vb, vc, vd.
        destruct (Hr g) as [R1 R2]; [lia|]. auto.
    - destruct p2 as [| | |w2 k2| | ];
        try (destruct Hag as [_ H]; specialize (H env (ext_refl env)); inversion H; discriminate).
      cbn [compile fst snd sem]. intros E Hr Ho.
      destruct av as [dv|]; cbn [half rows length] in *.
      + pose proof (agree_alloc _ _ _ _ _ dv Hag) as Hag'. specialize (IH _ _ _ g None r1 Hag').
        rewrite app_length in IH. cbn [length] in IH. rewrite Nat.add_comm in IH. cbn [Nat.add] in IH.
        destruct (IH E) as (r2 & Hh & Hm); [intros i Hi; apply Hr; cbn [half] in Hi; lia|exact Ho|].
        exists r2. split; [|exact Hm]. cbn [holds]. now exists dv.
      + pose proof (agree_alloc _ _ _ _ _ (val 0 KB g) Hag) as Hag'. specialize (IH _ _ _ (S g) (Some (val 0 KD g)) r1 Hag').
        rewrite app_length in IH. cbn [length] in IH. rewrite Nat.add_comm in IH. cbn [Nat.add] in IH.
        destruct (IH E) as (r2 & Hh & Hm); [intros i Hi; apply Hr; cbn [half] in Hi; lia|exact Ho|].
        exists r2. split; [|exact Hm]. cbn [holds]. now exists (val 0 KB g).
    - destruct p2 as [| | | |l2 k2| ];
        try (destruct Hag as [_ H]; specialize (H env (ext_refl env)); inversion H; discriminate).
      cbn [compile fst snd sem rows]. intros E Hr Ho. unfold lc_val in *. rewrite one in *.
      destruct (agree_add _ _ _ _ _ Hag) as [El Hag']. rewrite El in *.
      specialize (IH _ _ _ g av r1 Hag').
      rewrite app_length in IH. cbn [length] in IH. rewrite Nat.add_comm in IH. cbn [Nat.add] in IH.
      destruct (IH E Hr Ho) as (r2 & Hh & Hm). exists r2. split; [exact Hh|exact Hm].
    - destruct p2 as [| | | | |l2 k2];
        try (destruct Hag as [_ H]; specialize (H env (ext_refl env)); inversion H; discriminate).
      cbn [compile fst snd sem rows sm_own sm_env]. intros E Hr Ho. inversion Ho as [|? ? H0 Ho']; subst.
      unfold lc_val in H0. rewrite one in H0. destruct (agree_enf _ _ _ _ _ Hag) as [El Hag'].
      destruct (IH _ _ g av r1 Hag' E Hr Ho') as (r2 & Hh & Hm). exists r2. split; [|exact Hm].
      cbn [holds]. split; [congruence|exact Hh].
  Qed.

  (** from the relation to rows *)
  Lemma holds_sem : forall p1 p2 env r2, agree p1 p2 env -> holds p2 r2 ->
    let body := fst (compile p1 (length env)) in
    exists q r1, strip q = strip body /\ snd (compile p1 (length env)) = Some r1 /\ (forall h, Forall row_ok (rows h q)) /\
    forall val g av, one_val val = f1 ->
      (forall i row, nth_error (rows (half av) q) i = Some row -> row_at val (g + i) = row) ->
      (forall d, av = Some d -> d = next_alloc q) ->
      let r := sem val body 0 1 g av env in
      Forall (fun v => v = f0) (sm_own r) /\ map (lookup f1 (sm_env r)) (map (ew F wref) r1) = map (ew F F) r2.
  Proof.
    induction p1 as [a| |w k IH|w k IH|lc k IH|lc k IH]; intros p2 env r2 Hag Hh; cbv zeta.
    - destruct Hag as [L H]. specialize (H env (ext_refl env)). inversion H as [? a2 R| | | | | | ]; subst; try discriminate.
      cbn [holds] in Hh. subst a2. exists PEnd, a. split; [reflexivity|]. split; [reflexivity|]. split; [constructor|].
      intros val g av one Hr Hd. cbn [compile fst sem sm_own sm_env]. split; [constructor|]. now apply rres_lookup.
    - destruct Hag as [L H]. specialize (H env (ext_refl env)). inversion H; subst; try discriminate. destruct Hh.
    - destruct p2 as [|  |w2 k2| | | ];
        try (destruct Hag as [_ H]; specialize (H env (ext_refl env)); inversion H; discriminate).
      cbn [holds] in Hh. destruct Hh as (a & b & c & d & R1 & R2 & Hh).
      pose proof (agree_gate _ _ _ _ _ a b c d Hag) as Hag'. cbv zeta in Hag'.
      destruct (IH _ _ _ _ _ _ r2 Hag' Hh) as (q & r1 & Hs & Hr & Hok & Hv).
      rewrite app_length in Hs, Hr, Hv. cbn [length] in Hs, Hr, Hv. rewrite Nat.add_comm in Hs, Hr, Hv.
      cbn [Nat.add] in Hs, Hr, Hv.
      exists (PGate a b c d q), r1. cbn [compile].
      destruct (match w with Some t => t | None => _ end) as [[[a' b'] c'] d']. cbn [fst snd strip rows next_alloc].
      split; [now rewrite Hs|]. split; [exact Hr|]. split; [intros h; constructor; [split; assumption|apply Hok]|].
      intros val g av one Hrow Hd. cbn [sem].
      pose proof (Hrow 0 _ eq_refl) as H0. rewrite Nat.add_0_r in H0. unfold row_at in H0.
      assert (EA : val 0 KA g = a) by congruence. assert (EB : val 0 KB g = b) by congruence.
      assert (EC : val 0 KC g = c) by congruence. assert (ED : val 0 KD g = d) by congruence.
      rewrite EA, EB, EC, ED. apply Hv; [exact one| |exact Hd].
      intros i row Hi. replace (S g + i) with (g + S i) by lia. apply Hrow. exact Hi.
    - destruct p2 as [| | |w2 k2| | ];
        try (destruct Hag as [_ H]; specialize (H env (ext_refl env)); inversion H; discriminate).
      cbn [holds] in Hh. destruct Hh as (v & Hh).
      pose proof (agree_alloc _ _ _ _ _ v Hag) as Hag'.
      destruct (IH _ _ _ r2 Hag' Hh) as (q & r1 & Hs & Hr & Hok & Hv).
      rewrite app_length in Hs, Hr, Hv. cbn [length] in Hs, Hr, Hv. rewrite Nat.add_comm in Hs, Hr, Hv.
      cbn [Nat.add] in Hs, Hr, Hv.
      exists (PAlloc v q), r1. cbn [compile fst snd strip rows next_alloc].
      split; [now rewrite Hs|]. split; [exact Hr|]. split.
      { intros [|]; [apply Hok|]. constructor; [|apply Hok]. split; ring. }
      intros val g av one Hrow Hd. cbn [sem]. destruct av as [dv|]; cbn [half] in Hrow.
      + rewrite (Hd dv eq_refl). apply (Hv val g None); [exact one|exact Hrow|discriminate].
      + pose proof (Hrow 0 _ eq_refl) as H0. rewrite Nat.add_0_r in H0. unfold row_at in H0.
        assert (EB : val 0 KB g = v) by congruence. assert (ED : val 0 KD g = next_alloc q) by congruence.
        rewrite EB. apply (Hv val (S g) (Some (val 0 KD g))); [exact one| |].
        * intros i row Hi. replace (S g + i) with (g + S i) by lia. apply Hrow. exact Hi.
        * intros d Hd'. congruence.
    - destruct p2 as [| | | |l2 k2| ];
        try (destruct Hag as [_ H]; specialize (H env (ext_refl env)); inversion H; discriminate).
      cbn [holds] in Hh. destruct (agree_add _ _ _ _ _ Hag) as [El Hag'].
      destruct (IH _ _ _ r2 Hag' Hh) as (q & r1 & Hs & Hr & Hok & Hv).
      rewrite app_length in Hs, Hr, Hv. cbn [length] in Hs, Hr, Hv. rewrite Nat.add_comm in Hs, Hr, Hv.
      cbn [Nat.add] in Hs, Hr, Hv.
      exists (PAdd lc q), r1. cbn [compile fst snd strip rows next_alloc].
      split; [now rewrite Hs|]. split; [exact Hr|]. split; [exact Hok|].
      intros val g av one Hrow Hd. cbn [sem]. unfold lc_val. rewrite one, El. apply Hv; assumption.
    - destruct p2 as [| | | | |l2 k2];
        try (destruct Hag as [_ H]; specialize (H env (ext_refl env)); inversion H; discriminate).
      cbn [holds] in Hh. destruct Hh as [H0 Hh]. destruct (agree_enf _ _ _ _ _ Hag) as [El Hag'].
      destruct (IH _ _ r2 Hag' Hh) as (q & r1 & Hs & Hr & Hok & Hv).
      exists (PEnforce lc q), r1. cbn [compile fst snd strip rows next_alloc].
      split; [now rewrite Hs|]. split; [exact Hr|]. split; [exact Hok|].
      intros val g av one Hrow Hd. cbn [sem sm_own sm_env]. unfold lc_val at 1. rewrite one, El, H0.
      destruct (Hv val g av one Hrow Hd) as [I1 I2]. split; [constructor; auto|exact I2].
  Qed.

  (** ** shape facts *)
  Lemma compile_subs {A : Type} (p : G F wref A) : forall val n s t g av env,
    sm_subs (sem val (fst (compile p n)) s t g av env) = [] /\ sub_sizes (fst (compile p n)) = [].
  Proof.
    induction p as [a| |w k IH|w k IH|lc k IH|lc k IH]; intros; cbn [compile fst sem sm_subs sub_sizes]; auto.
    - destruct (match w with Some t => t | None => _ end) as [[[a' b'] c'] d']. cbn [fst sem sm_subs sub_sizes]. auto.
    - destruct av; auto.
  Qed.
  Lemma strip_counts (p q : prog F) : strip p = strip q ->
    own_gates p = own_gates q /\ own_allocs p = own_allocs q /\ own_cons p = own_cons q.
  Proof.
    revert q. induction p as [|? ? ? ? k IH|? ? ? k IH|? k IH|? k IH|? k IH|? k IH|? k IH|? ? b IHb ? k IH];
      intros q; destruct q; cbn [strip]; intros E; try discriminate; auto; inversion E as [E'];
      cbn [own_gates own_allocs own_cons];
      match goal with H : strip k = strip _ |- _ => destruct (IH _ H) as (-> & -> & ->) end; auto.
  Qed.
  Lemma strip_rows (p q : prog F) h : strip p = strip q -> length (rows h p) = length (rows h q).
  Proof.
    intros E. destruct (strip_counts _ _ E) as (E1 & E2 & E3). rewrite !rows_length. unfold used.
    destruct h; now rewrite E1, E2.
  Qed.

  (** ** ownership *)
  Lemma rwire_ok env w v : rwire env w v -> ref_ok (repeat true (length env)) w = true /\ ref_hides w = true.
  Proof.
    destruct w as [|i]; cbn; [auto|]. intros [Hi H]. split.
    - assert (i < length env) by (apply nth_error_Some; now rewrite H).
      rewrite nth_indep with (d' := true) by now rewrite repeat_length. apply nth_repeat.
    - destruct (Nat.eqb_spec i 3); [lia|reflexivity].
  Qed.
  Lemma lrel_ok env (lc : list (lcall F wref)) (lc' : list (lcall F F)) : Forall2 (lrel (rwire env)) lc lc' ->
    lc_ok (repeat true (length env)) lc = true /\ lc_hides lc = true.
  Proof.
    unfold lc_ok, lc_hides. induction 1 as [|x y l l' Hx _ [IH1 IH2]]; [auto|]. cbn [forallb]. rewrite IH1, IH2, !andb_true_r.
    destruct Hx as [w w' c H|c|w w' H|w w' H|ts ts' H]; auto; try (eapply rwire_ok; eassumption).
    induction H as [|t t' m m' [Ht _] _ [I1 I2]]; [auto|]. cbn [forallb].
    destruct (rwire_ok _ _ _ Ht) as [-> ->]. now rewrite I1, I2.
  Qed.
  Lemma live_app (env t : list F) :
    repeat true (length env) ++ repeat true (length t) = repeat true (length (env ++ t)).
  Proof. now rewrite app_length, repeat_app. Qed.
  Lemma owned_outputs (env : list F) outs : Forall (fun w => ref_ok (repeat true (length env)) w = true) outs ->
    owned (F := F) (enforce_outputs outs) (repeat true (length env)) <> None.
  Proof.
    induction 1 as [|o r Ho _ IH]; cbn [enforce_outputs owned].
    - cbn. discriminate.
    - unfold lc_ok. cbn [forallb]. rewrite Ho. exact IH.
  Qed.
  Lemma owned_compile : forall p1 p2 (env : list F), agree p1 p2 env -> forall r1,
    snd (compile p1 (length env)) = Some r1 ->
    owned (prog_app (fst (compile p1 (length env))) (enforce_outputs (map (ew F wref) r1))) (repeat true (length env)) <> None /\
    hides_d (fst (compile p1 (length env))) = true /\ Forall (fun w => ref_hides w = true) (map (ew F wref) r1).
  Proof.
    induction p1 as [a| |w k IH|w k IH|lc k IH|lc k IH]; intros p2 env Hag r1 E.
    - destruct Hag as [L H]. specialize (H env (ext_refl env)). inversion H as [? a2 R| | | | | | ]; subst; try discriminate.
      cbn [compile snd] in E. inversion E; subst. cbn [compile fst prog_app hides_d].
      assert (K : Forall (fun w => ref_ok (repeat true (length env)) w = true /\ ref_hides w = true) (map (ew F wref) r1)).
      { clear - R. induction R as [|x y l l' Hx _ IHR]; cbn [map]; constructor; auto. eapply rwire_ok, Hx. }
      split; [|split; [reflexivity|]].
      + apply owned_outputs. eapply Forall_impl; [|exact K]. intros w [? ?]; assumption.
      + eapply Forall_impl; [|exact K]. intros w [? ?]; assumption.
    - discriminate.
    - destruct p2 as [|  |w2 k2| | | ];
        try (destruct Hag as [_ H]; specialize (H env (ext_refl env)); inversion H; discriminate).
      pose proof (agree_gate _ _ _ _ _ f0 f0 f0 f0 Hag) as Hag'. cbv zeta in Hag'.
      specialize (IH _ _ _ _ _ _ Hag' r1). rewrite <- live_app in IH.
      rewrite app_length in IH. cbn [length repeat] in IH. rewrite Nat.add_comm in IH. cbn [Nat.add] in IH.
      cbn [compile] in *. destruct (match w with Some t => t | None => _ end) as [[[a' b'] c'] d'].
      cbn [fst snd prog_app owned hides_d] in *. auto.
    - destruct p2 as [| | |w2 k2| | ];
        try (destruct Hag as [_ H]; specialize (H env (ext_refl env)); inversion H; discriminate).
      pose proof (agree_alloc _ _ _ _ _ f0 Hag) as Hag'.
      specialize (IH _ _ _ Hag' r1). rewrite <- live_app in IH.
      rewrite app_length in IH. cbn [length repeat] in IH. rewrite Nat.add_comm in IH. cbn [Nat.add] in IH.
      cbn [compile fst snd prog_app owned hides_d] in *. auto.
    - destruct p2 as [| | | |l2 k2| ];
        try (destruct Hag as [_ H]; specialize (H env (ext_refl env)); inversion H; discriminate).
      destruct (agree_add _ _ _ _ _ Hag) as [_ Hag'].
      assert (Hl : Forall2 (lrel (rwire env)) lc l2)
        by (destruct Hag as [_ H]; specialize (H env (ext_refl env)); inversion H; subst; try discriminate; assumption).
      destruct (lrel_ok _ _ _ Hl) as [O1 O2].
      specialize (IH _ _ _ Hag' r1). rewrite <- live_app in IH.
      rewrite app_length in IH. cbn [length repeat] in IH. rewrite Nat.add_comm in IH. cbn [Nat.add] in IH.
      cbn [compile fst snd prog_app owned hides_d] in *. rewrite O1, O2. auto.
    - destruct p2 as [| | | | |l2 k2];
        try (destruct Hag as [_ H]; specialize (H env (ext_refl env)); inversion H; discriminate).
      destruct (agree_enf _ _ _ _ _ Hag) as [_ Hag'].
      assert (Hl : Forall2 (lrel (rwire env)) lc l2)
        by (destruct Hag as [_ H]; specialize (H env (ext_refl env)); inversion H; subst; try discriminate; assumption).
      destruct (lrel_ok _ _ _ Hl) as [O1 O2].
      cbn [compile fst snd prog_app owned hides_d] in *. rewrite O1, O2. eauto.
  Qed.

  (** ** closed circuits *)
  Lemma generic_agree (p : circuit F) (env : list F) : generic p -> length env = 4 -> agree (p wref WOne) (p F f1) env.
  Proof. intros H L. split; [lia|]. intros E _. apply H. reflexivity. Qed.
  Lemma circuit_owned (p : circuit F) outs : generic p -> couts p = Some outs ->
    owned (orchestrate (cbody p) outs) [] <> None /\ hides_d (orchestrate (cbody p) outs) = true.
  Proof.
    intros H Ho. unfold couts in Ho. destruct (snd (compile (p wref WOne) 4)) as [r1|] eqn:E; [|discriminate].
    inversion Ho; subst outs. pose proof (generic_agree p [f0; f0; f0; f0] H eq_refl) as Hag.
    destruct (owned_compile _ _ _ Hag r1 E) as (O & Hh & Hr). cbn [length repeat] in O.
    unfold orchestrate, cbody. cbn [owned hides_d app]. split; [exact O|].
    cbn [length] in Hh. revert Hh Hr. generalize (fst (compile (p wref WOne) 4)) as q. generalize (map (ew F wref) r1) as outs.
    intros outs q Hh Hr. assert (K : hides_d (F := F) (enforce_outputs outs) = true).
    { clear - Hr. induction Hr as [|o r Hx _ IH]; [reflexivity|]. cbn [enforce_outputs hides_d]. unfold lc_hides.
      cbn [forallb]. now rewrite Hx, IH. }
    now rewrite SProofs.hides_app, Hh, K.
  Qed.

  Lemma circuit_sizes (p : circuit F) outs : 
    sizes (orchestrate (cbody p) outs) = [(S (length (rows false (cbody p))), own_cons (cbody p) + S (length outs))].
  Proof.
    unfold sizes. f_equal.
    - unfold scope_size, orchestrate. cbn [own_gates own_allocs own_cons]. f_equal.
      + rewrite <- (rows_app F (cbody p) outs), rows_length. unfold used. now rewrite Nat.add_1_r.
      + rewrite own_cons_app. f_equal. induction outs; cbn in *; congruence.
    - unfold orchestrate. cbn [sub_sizes].
      assert (K : sub_sizes (cbody p) = []) by (unfold cbody; apply (compile_subs _ (fun _ _ _ => f0) 4 0 0 0 None [])).
      revert K. generalize (cbody p). intros q. 
      induction q; cbn [prog_app sub_sizes]; auto; try discriminate.
      intros _. induction outs; cbn; auto.
  Qed.

  Lemma satisfied_holds n (p : circuit F) outs outputs a b c d :
    generic p -> couts p = Some outs -> list_sum (map fst (sizes (orchestrate (cbody p) outs))) <= n ->
    satisfied n a b c d (cbody p) outs outputs -> exists r, holds (p F f1) r /\ map (ew F F) r = outputs.
  Proof.
    intros H Ho Hn [Hg (Hown & _ & Hout & Hone)]. unfold couts in Ho.
    destruct (snd (compile (p wref WOne) 4)) as [r1|] eqn:E; [|discriminate]. inversion Ho; subst outs. clear Ho.
    set (val := placed _ _) in *.
    pose proof (generic_agree p (system_wires val) H eq_refl) as Hag.
    destruct (sem_holds val Hone _ _ _ 1 None r1 Hag E) as (r2 & Hh & Hm).
    - intros i Hi. cbn [half length system_wires] in Hi. fold (cbody p) in Hi.
      rewrite circuit_sizes in Hn. cbn [map fst list_sum fold_right] in Hn. unfold row_ok, row_at, val, placed, columns.
      change (gate_off _ 0) with 0. cbn [Nat.add]. apply Hg. lia.
    - exact Hown.
    - exists r2. split; [exact Hh|]. rewrite <- Hm. rewrite <- Hout, Hone. reflexivity.
  Qed.
  Lemma holds_satisfied n alpha (p : circuit F) outs r : generic p -> couts p = Some outs ->
    list_sum (map fst (sizes (orchestrate (cbody p) outs))) <= n -> holds (p F f1) r ->
    exists a b c d, length a <= n /\ length b <= n /\ length c <= n /\ length d <= n /\ nth 0 d f0 = alpha /\ nth 0 c f0 = f0 /\
      satisfied n a b c d (cbody p) outs (map (ew F F) r).
  Proof.
    intros H Ho Hn Hh. unfold couts in Ho.
    destruct (snd (compile (p wref WOne) 4)) as [r1|] eqn:E; [|discriminate]. inversion Ho; subst outs. clear Ho.
    rewrite circuit_sizes in Hn. cbn [map fst list_sum fold_right] in Hn.
    assert (Hag : agree (p wref WOne) (p F f1) [f0; f1; f0; alpha]) by now apply generic_agree.
    destruct (holds_sem _ _ _ _ Hag Hh) as (q & r1' & Hs & Hr & Hok & Hv). cbn [length] in Hs, Hr, Hv.
    rewrite E in Hr. inversion Hr; subst r1'. clear Hr. fold (cbody p) in Hs, Hv.
    set (R := (f0, f1, f0, alpha) :: rows false q).
    assert (LR : length R <= n) by (unfold R; cbn [length]; rewrite (strip_rows _ _ false Hs); lia).
    exists (map (fun r => fst (fst (fst r))) R), (map (fun r => snd (fst (fst r))) R),
           (map (fun r => snd (fst r)) R), (map snd R).
    rewrite !map_length. do 4 (split; [exact LR|]). split; [reflexivity|]. split; [reflexivity|]. unfold satisfied.
    set (val := placed _ _).
    assert (Hval : forall i row, nth_error R i = Some row -> row_at val i = row).
    { intros i [[[ra rb] rc] rd] Hi. unfold row_at, val, placed, columns. change (gate_off _ 0) with 0. cbn [Nat.add].
      repeat match goal with |- context [nth i (map ?f R) f0] =>
        rewrite (nth_error_nth (map f R) i (x := f (ra, rb, rc, rd)) f0) by now rewrite nth_error_map, Hi end.
      reflexivity. }
    split.
    - intros i Hi. destruct (nth_error R i) as [[[[ra rb] rc] rd]|] eqn:Hr.
      + specialize (Hval i _ Hr). unfold row_at, val, placed, columns in Hval. change (gate_off _ 0) with 0 in Hval.
        cbn [Nat.add] in Hval.
        assert (K : row_ok (ra, rb, rc, rd)).
        { destruct i as [|i]; cbn [R nth_error] in Hr.
          - unfold R in Hr. cbn in Hr. inversion Hr; subst. split; ring.
          - unfold R in Hr. cbn [nth_error] in Hr. pose proof (Hok false) as K. rewrite Forall_forall in K.
            apply K. eapply nth_error_In; eauto. }
        destruct K as [K1 K2]. split; congruence.
      + apply nth_error_None in Hr. rewrite !nth_overflow by now rewrite map_length. split; ring.
    - assert (Hone : one_val val = f1) by reflexivity.
      destruct (Hv val 1 None Hone) as [I1 I2].
      + intros i row Hi. apply (Hval (1 + i)). exact Hi.
      + discriminate.
      + unfold linear_ok. cbv zeta.
        assert (Es : system_wires val = [f0; f1; f0; alpha]) by reflexivity. rewrite Es.
        split; [exact I1|]. split; [|split; [rewrite Hone; exact I2|exact Hone]].
        unfold cbody. destruct (compile_subs (p wref WOne) val 4 0 1 1 None [f0; f1; f0; alpha]) as [-> _]. constructor.
  Qed.
End Comp.
