(** Proofs about FoldModel.v, part 1: chunks, polynomial folds, error terms. *)
From Coq Require Import List Arith Bool Lia Ring Field.
From Verif Require Import FieldDef ModDef ArithModel SparseModel SparseSpec SparseProofs GadgetModel PrimModel FoldModel FoldSpec.
Import ListNotations.
Local Open Scope nat_scope.

(** ** chunks *)
Lemma skipn_add {T : Type} (a b : nat) (l : list T) : skipn a (skipn b l) = skipn (b + a) l.
Proof. revert l. induction b as [|b IH]; intros l; [reflexivity|]. destruct l; [rewrite !skipn_nil; reflexivity|]. cbn. apply IH. Qed.
Lemma nth_chunks {T : Type} (m : nat) (Hm : 0 < m) : forall fuel (l : list T) g, length l <= fuel ->
  nth g (chunks_go fuel m l) [] = firstn m (skipn (g * m) l).
Proof.
  induction fuel as [|fuel IH]; intros l g H.
  - destruct l; [|cbn in H; lia]. cbn [chunks_go]. rewrite skipn_nil, firstn_nil. destruct g; reflexivity.
  - destruct l as [|x l]; [cbn [chunks_go]; rewrite skipn_nil, firstn_nil; destruct g; reflexivity|].
    cbn [chunks_go]. destruct g as [|g]; [reflexivity|]. cbn [nth]. rewrite IH.
    + f_equal. rewrite skipn_add. reflexivity.
    + rewrite skipn_length. cbn [length] in *. lia.
Qed.
Lemma len_chunks {T : Type} (m : nat) (Hm : 0 < m) : forall fuel (l : list T), length l <= fuel ->
  forall g, length (chunks_go fuel m l) <= g <-> length l <= g * m.
Proof.
  induction fuel as [|fuel IH]; intros l H g.
  - destruct l; [|cbn in H; lia]. cbn. lia.
  - destruct l as [|x l]; [cbn; lia|]. cbn [chunks_go]. set (l' := x :: l) in *.
    assert (0 < length l') by (subst l'; cbn; lia).
    destruct g as [|g]; [cbn [length]; lia|]. cbn [length].
    rewrite <- Nat.succ_le_mono. rewrite IH by (rewrite skipn_length; subst l'; cbn [length] in *; lia).
    rewrite skipn_length. lia.
Qed.
Lemma nth_firstn {T : Type} (l : list T) m i d : nth i (firstn m l) d = if i <? m then nth i l d else d.
Proof.
  revert m i. induction l as [|x l IH]; intros m i.
  - rewrite firstn_nil. destruct i; destruct (_ <? m); reflexivity.
  - destruct m as [|m]; [destruct i; reflexivity|]. destruct i as [|i]; [reflexivity|]. cbn [firstn nth]. rewrite IH. reflexivity.
Qed.
Lemma nth_skipn {T : Type} (l : list T) m i d : nth i (skipn m l) d = nth (m + i) l d.
Proof.
  revert m i. induction l as [|x l IH]; intros m i.
  - rewrite skipn_nil. rewrite !nth_overflow by (cbn; lia). reflexivity.
  - destruct m as [|m]; [reflexivity|]. cbn [skipn]. rewrite IH. reflexivity.
Qed.
Lemma nth_rep {T : Type} (d : T) n i : nth i (repeat d n) d = d.
Proof. revert i. induction n as [|n IH]; intros [|i]; cbn; auto. Qed.
Lemma nth_pad {T : Type} (l : list T) n d i : nth i (l ++ repeat d n) d = nth i l d.
Proof.
  destruct (Nat.lt_ge_cases i (length l)); [apply app_nth1; assumption|].
  rewrite app_nth2 by assumption. rewrite nth_rep, nth_overflow by assumption. reflexivity.
Qed.
Lemma nth_error_d {T : Type} (l : list T) i d : nth i l d = match nth_error l i with Some x => x | None => d end.
Proof. revert i. induction l as [|x l IH]; intros [|i]; cbn; auto. Qed.
(** the padded g-th chunk *)
Lemma chunk_pad {T : Type} (m : nat) (l : list T) (d : T) g : 0 < m ->
  let c := nth g (chunks_go (length l) m l) [] in
  length c <= m /\ length (c ++ repeat d (m - length c)) = m /\
  forall i, i < m -> nth i (c ++ repeat d (m - length c)) d = nth (g * m + i) l d.
Proof.
  intros Hm c. assert (E : c = firstn m (skipn (g * m) l)) by (apply nth_chunks; [exact Hm|lia]).
  assert (L : length c <= m) by (rewrite E; apply firstn_le_length). split; [exact L|]. split.
  - rewrite app_length, repeat_length. lia.
  - intros i Hi. rewrite nth_pad, E, nth_firstn, nth_skipn. destruct (Nat.ltb_spec i m); [reflexivity|lia].
Qed.

Lemma opt_all_ok {A B : Type} (f : A -> option B) (l : list A) :
  Forall (fun x => f x <> None) l -> exists rs, opt_all f l = Some rs /\ length rs = length l /\
    forall i a b, i < length l -> f (nth i l a) = Some (nth i rs b).
Proof.
  induction 1 as [|x l Hx Hl (rs & E & L & V)]; cbn [opt_all].
  - exists []. repeat split. intros i a b Hi. cbn in Hi. lia.
  - destruct (f x) as [y|] eqn:Ey; [|congruence]. rewrite E. cbn [option_map]. exists (y :: rs). split; [reflexivity|].
    split; [cbn; lia|]. intros [|i] a b Hi; [exact Ey|]. cbn [nth]. apply V. cbn in Hi. lia.
Qed.
Lemma opt_all_none {A B : Type} (f : A -> option B) (l : list A) x : In x l -> f x = None -> opt_all f l = None.
Proof.
  induction l as [|y l IH]; intros I E; [destruct I|]. cbn [opt_all]. destruct I as [->|I]; [rewrite E; reflexivity|].
  destruct (f y); [|reflexivity]. rewrite (IH I E). reflexivity.
Qed.
Lemma fixed_ok {T : Type} (L : nat) (l : list T) : fixed L l = if length l =? L then Some l else None.
Proof. unfold fixed, fv_collect, fv_try_from. destruct (length l =? L); reflexivity. Qed.
Lemma take_pad {T : Type} (N : nat) (l : list T) (d : T) : length l <= N ->
  firstn N (l ++ repeat d N) = l ++ repeat d (N - length l) .
Proof.
  intros H. rewrite firstn_app, firstn_all2 by exact H. f_equal.
  assert (Q : forall a b, a <= b -> firstn a (repeat d b) = repeat d a).
  { induction a as [|a IH]; intros b Hb; [reflexivity|]. destruct b; [lia|]. cbn. f_equal. apply IH. lia. }
  apply Q. lia.
Qed.

Section FoldP.
  Variable F : Field.
  Add Field FFfo : (f_theory F).
  Open Scope f_scope.
  Variable NC : nat.
  Local Notation poly := (poly F).
  Local Notation wfp := (wf 0 NC).

  (** ** polynomial folds *)
  Lemma g_fold_poly (ps : list poly) (s : F) : g_fold (poly_foldable NC) ps s = p_fold NC ps s.
  Proof.
    unfold g_fold, p_fold. cbn [fd_default fd_scale fd_add poly_foldable]. generalize (@p_new F).
    induction ps as [|q ps IH]; intros acc; cbn [fold_left p_fold_from]; [reflexivity|].
    destruct (p_add NC (p_scale s acc) q) as [a|]; [apply IH|]. clear. induction ps; cbn; auto.
  Qed.
  Lemma fold_poly_ok (ps : list poly) (s : F) : Forall wfp ps ->
    exists r, g_fold (poly_foldable NC) ps s = Some r /\ wfp r /\
      forall k, coeff_at r k = hfold (length ps) s (fun i => coeff_at (nth i ps []) k).
  Proof. intros W. rewrite g_fold_poly. destruct (fold_ok F NC s ps W) as (r & E & Wr & C). eauto. Qed.

  Lemma wf_nth (ps : list poly) i : Forall wfp ps -> wfp (nth i ps []).
  Proof.
    intros W. destruct (Nat.lt_ge_cases i (length ps)).
    - rewrite Forall_forall in W. apply W. apply nth_In. assumption.
    - rewrite nth_overflow by assumption. exact I.
  Qed.
  Lemma coeff_nil k : coeff_at ([] : poly) k = 0. Proof. reflexivity. Qed.

  Lemma fold_inner_ok (M N : nat) (ps : list poly) (s : F) : (0 < M)%nat -> (length ps <= M * N)%nat -> Forall wfp ps ->
    exists rs, fold_inner (poly_foldable NC) M N ps s = Some rs /\ length rs = N /\ Forall wfp rs /\
      forall g k, coeff_at (nth g rs []) k = hfold M s (fun i => coeff_at (nth (g * M + i) ps []) k).
  Proof.
    intros HM HL W. unfold fold_inner. destruct (Nat.ltb_spec (M * N) (length ps)); [lia|]. unfold chunks.
    destruct (Nat.eqb_spec M 0); [lia|]. set (cs := chunks_go (length ps) M ps).
    assert (LC : (length cs <= N)%nat) by (apply (len_chunks M HM (length ps) ps (le_n _)); lia).
    assert (CW : forall g, Forall wfp (nth g cs [] ++ repeat (fd_default (poly_foldable NC)) (M - length (nth g cs [])))).
    { intros g. apply Forall_app. split.
      - apply Forall_forall. intros p Hp. apply In_nth with (d := []) in Hp. destruct Hp as (i & Hi & <-).
        destruct (chunk_pad M ps ([] : poly) g HM) as (L1 & _ & V). fold cs in L1, V.
        rewrite <- (nth_pad (nth g cs []) (M - length (nth g cs [])) []), V by lia. apply wf_nth. exact W.
      - apply Forall_forall. intros p Hp. apply repeat_spec in Hp. subst p. exact I. }
    destruct (opt_all_ok (fun c => g_fold (poly_foldable NC) (c ++ repeat (fd_default (poly_foldable NC)) (M - length c)) s) cs)
      as (rs & E & L & V).
    { apply Forall_forall. intros c Hc. apply In_nth with (d := []) in Hc. destruct Hc as (g & _ & <-).
      destruct (fold_poly_ok _ s (CW g)) as (r & -> & _). congruence. }
    rewrite E. rewrite fixed_ok, take_pad by lia. rewrite app_length, repeat_length.
    destruct (Nat.eqb_spec (length rs + (N - length rs)) N); [|lia].
    exists (rs ++ repeat (fd_default (poly_foldable NC)) (N - length rs)). split; [reflexivity|].
    assert (VV : forall g k, coeff_at (nth g rs []) k = hfold M s (fun i => coeff_at (nth (g * M + i) ps []) k)).
    { intros g k. destruct (Nat.lt_ge_cases g (length cs)) as [G|G].
      - specialize (V g [] ([] : poly) G). cbv beta in V. destruct (fold_poly_ok _ s (CW g)) as (r & Er & _ & C). rewrite Er in V.
        assert (r = nth g rs []) by congruence. subst r. rewrite C.
        destruct (chunk_pad M ps ([] : poly) g HM) as (_ & L2 & V2). fold cs in L2, V2.
        unfold hfold. change (fd_default (poly_foldable NC)) with ([] : poly). rewrite L2. apply fsum_ext. intros i Hi. rewrite V2 by exact Hi. reflexivity.
      - rewrite nth_overflow by lia. rewrite coeff_nil. symmetry. apply fsum_zero. intros i Hi.
        assert ((length ps <= g * M)%nat) by (apply (len_chunks M HM (length ps) ps (le_n _)); exact G).
        rewrite nth_overflow by lia. rewrite coeff_nil. ring. }
    split; [rewrite app_length, repeat_length; lia|]. split.
    - apply Forall_app. split.
      + apply Forall_forall. intros p Hp. apply In_nth with (d := []) in Hp. destruct Hp as (g & Hg & <-).
        rewrite L in Hg. specialize (V g [] ([] : poly) Hg). cbv beta in V.
        destruct (fold_poly_ok _ s (CW g)) as (r & Er & Wr & _). rewrite Er in V.
        assert (r = nth g rs []) by congruence. subst r. exact Wr.
      + apply Forall_forall. intros p Hp. apply repeat_spec in Hp. subst p. exact I.
    - intros g k. change (fd_default (poly_foldable NC)) with ([] : poly). rewrite (nth_pad rs (N - length rs) ([] : poly) g). apply VV.
  Qed.
  Lemma fold_inner_none {T : Type} (fd : foldable F T) (M N : nat) (ps : list T) (s : F) :
    (M * N < length ps)%nat -> fold_inner fd M N ps s = None.
  Proof. intros H. unfold fold_inner. destruct (Nat.ltb_spec (M * N) (length ps)); [reflexivity|lia]. Qed.

  (** ** revdot is bilinear *)
  Lemma revdot_rdot (p q : poly) : wfp p -> wfp q -> p_revdot NC p q = rdot NC p q.
  Proof. apply revdot_ok. Qed.
  Lemma rdot_nil_l (q : poly) : rdot NC [] q = 0.
  Proof. apply fsum_zero. intros i _. rewrite coeff_nil. ring. Qed.
  Lemma rdot_nil_r (q : poly) : rdot NC q [] = 0.
  Proof. apply fsum_zero. intros i _. rewrite coeff_nil. ring. Qed.
  Lemma fsum_swap n m (f : nat -> nat -> F) : fsum n (fun i => fsum m (f i)) = fsum m (fun j => fsum n (fun i => f i j)).
  Proof.
    induction n as [|n IH]; cbn [fsum]; [symmetry; apply fsum_zero; reflexivity|]. rewrite IH, <- fsum_add. reflexivity.
  Qed.
  Lemma rdot_hfold n (s t : F) (a b : nat -> poly) (A B : poly) :
    (forall k, coeff_at A k = hfold n s (fun i => coeff_at (a i) k)) ->
    (forall k, coeff_at B k = hfold n t (fun i => coeff_at (b i) k)) ->
    rdot NC A B = weigh n s t (fun i j => rdot NC (a i) (b j)).
  Proof.
    intros HA HB. unfold rdot at 1. rewrite (fsum_ext F NC _ (fun k => fsum n (fun i => fsum n (fun j =>
      s ^ (n - 1 - i) * t ^ (n - 1 - j) * (coeff_at (a i) k * coeff_at (b j) (NC - 1 - k)))))).
    - rewrite fsum_swap. apply fsum_ext. intros i _. rewrite fsum_swap. apply fsum_ext. intros j _.
      unfold rdot. apply fsum_scale.
    - intros k _. rewrite HA, HB. unfold hfold. rewrite <- fsum_scale_r. apply fsum_ext. intros i _.
      rewrite <- fsum_scale. apply fsum_ext. intros j _. ring.
  Qed.

  (** ** error terms *)
  Lemma row_off (n i : nat) : (i < n)%nat ->
    flat_map (fun j => if negb (i =? j) then [(i, j)] else []) (seq 0 n)
    = map (fun r => (i, if r <? i then r else S r)) (seq 0 (n - 1)).
  Proof.
    intros H. replace n with (i + S (n - 1 - i))%nat at 1 by lia. rewrite seq_app, flat_map_app. cbn [seq flat_map].
    rewrite Nat.add_0_l, Nat.eqb_refl. cbn [negb app].
    replace (n - 1)%nat with (i + (n - 1 - i))%nat at 2 by lia. rewrite seq_app, map_app. f_equal.
    - assert (Q : forall l, (forall j, In j l -> (j < i)%nat) ->
        flat_map (fun j => if negb (i =? j) then [(i, j)] else []) l = map (fun r => (i, if r <? i then r else S r)) l).
      { induction l as [|x l IH]; intros Hl; [reflexivity|]. cbn [flat_map map]. rewrite IH by (intros; apply Hl; right; assumption).
        assert ((x < i)%nat) by (apply Hl; left; reflexivity). destruct (Nat.eqb_spec i x); [lia|]. destruct (Nat.ltb_spec x i); [reflexivity|lia]. }
      apply Q. intros j Hj. apply in_seq in Hj. lia.
    - rewrite Nat.add_0_l. generalize (n - 1 - i)%nat. clear H. intros m.
      assert (Q : forall a, (i <= a)%nat -> flat_map (fun j => if negb (i =? j) then [(i, j)] else []) (seq (S a) m)
                = map (fun r => (i, if r <? i then r else S r)) (seq a m)).
      { induction m as [|m IH]; intros a Ha; [reflexivity|]. cbn [seq flat_map map]. rewrite IH by lia.
        destruct (Nat.eqb_spec i (S a)); [lia|]. destruct (Nat.ltb_spec a i); [lia|reflexivity]. }
      apply Q. lia.
  Qed.
  Lemma flat_grid {T : Type} (f : nat -> nat -> T) (m : nat) : forall n,
    flat_map (fun i => map (f i) (seq 0 m)) (seq 0 n) = map (fun p => f (p / m)%nat (p mod m)%nat) (seq 0 (n * m)).
  Proof.
    induction n as [|n IH]; [reflexivity|]. rewrite seq_S, flat_map_app, IH. cbn [flat_map]. rewrite app_nil_r.
    replace (S n * m)%nat with (n * m + m)%nat by lia. rewrite seq_app, map_app. f_equal. cbn [Nat.add].
    replace (seq (n * m) m) with (map (fun r => n * m + r)%nat (seq 0 m)).
    - rewrite map_map. apply map_ext_in. intros r Hr. apply in_seq in Hr.
      replace (n * m + r)%nat with (r + n * m)%nat by lia. rewrite Nat.div_add, Nat.mod_add by lia.
      rewrite Nat.div_small, Nat.mod_small by lia. reflexivity.
    - generalize (n * m)%nat. intros b. clear. induction m as [|m IH]; [reflexivity|]. rewrite !seq_S, map_app, IH. reflexivity.
  Qed.
  Lemma off_diagonal_eq (n : nat) : off_diagonal n =
    map (fun p => (p / (n - 1), if p mod (n - 1) <? p / (n - 1) then p mod (n - 1) else S (p mod (n - 1)))%nat) (seq 0 (n * (n - 1))).
  Proof.
    unfold off_diagonal.
    assert (Q : forall l, (forall i, In i l -> (i < n)%nat) ->
      flat_map (fun i => flat_map (fun j => if negb (i =? j) then [(i, j)] else []) (seq 0 n)) l =
      flat_map (fun i => map (fun r => (i, if r <? i then r else S r)) (seq 0 (n - 1))) l).
    { induction l as [|x l IH]; intros Hl; [reflexivity|]. cbn [flat_map]. rewrite IH by (intros; apply Hl; right; assumption).
      rewrite row_off by (apply Hl; left; reflexivity). reflexivity. }
    rewrite Q by (intros i Hi; apply in_seq in Hi; lia). apply flat_grid.
  Qed.
  Lemma num_errors (n : nat) : num_error_terms n = (n * (n - 1))%nat.
  Proof. unfold num_error_terms. destruct n; [reflexivity|]. cbn [Nat.sub]. rewrite Nat.sub_0_r. nia. Qed.
  Lemma off_len (n : nat) : length (off_diagonal n) = num_error_terms n.
  Proof. rewrite off_diagonal_eq, map_length, seq_length, num_errors. reflexivity. Qed.
  Lemma err_index_lt (n i j : nat) : (i < n)%nat -> (j < n)%nat -> i <> j -> (err_index n i j < n * (n - 1))%nat.
  Proof. intros A B C. unfold err_index. destruct (Nat.ltb_spec j i); nia. Qed.
  Lemma off_nth (n i j : nat) d : (i < n)%nat -> (j < n)%nat -> i <> j -> nth (err_index n i j) (off_diagonal n) d = (i, j).
  Proof.
    intros Hi Hj Hd. pose proof (err_index_lt n i j Hi Hj Hd) as L. rewrite off_diagonal_eq.
    rewrite nth_indep with (d' := (fun p => (p / (n - 1), if p mod (n - 1) <? p / (n - 1) then p mod (n - 1) else S (p mod (n - 1)))%nat) 0%nat)
      by (rewrite map_length, seq_length; exact L).
    rewrite (map_nth (fun p => (p / (n - 1), if p mod (n - 1) <? p / (n - 1) then p mod (n - 1) else S (p mod (n - 1)))%nat)).
    rewrite seq_nth by exact L. cbn [Nat.add]. unfold err_index in *.
    set (r := if j <? i then j else (j - 1)%nat) in *.
    assert (Hr : (r < n - 1)%nat) by (subst r; destruct (Nat.ltb_spec j i); lia).
    replace (i * (n - 1) + r)%nat with (r + i * (n - 1))%nat by lia. rewrite Nat.div_add, Nat.mod_add by lia.
    rewrite Nat.div_small, Nat.mod_small by lia. cbn [Nat.add]. f_equal. subst r.
    destruct (Nat.ltb_spec j i), (Nat.ltb_spec j i), (Nat.ltb_spec (j - 1) i); lia.
  Qed.
  (** the off-diagonal listing of the matrix made from a list is that list *)
  Lemma entry_errs (n : nat) (errs ky : list F) : length errs = num_error_terms n ->
    map (fun ij => entry n errs ky (fst ij) (snd ij)) (off_diagonal n) = errs.
  Proof.
    intros H. apply (nth_ext _ _ 0 0).
    - rewrite map_length, off_len. congruence.
    - intros p Hp. rewrite map_length, off_len, num_errors in Hp.
      rewrite off_diagonal_eq, map_map. set (f := fun x : nat => _).
      rewrite nth_indep with (d' := f 0%nat) by (rewrite map_length, seq_length; exact Hp). rewrite (map_nth f), seq_nth by exact Hp.
      unfold f. cbn [Nat.add fst snd]. assert (n - 1 <> 0)%nat by nia.
      pose proof (Nat.div_mod_eq p (n - 1)). pose proof (Nat.mod_upper_bound p (n - 1)).
      set (i := (p / (n - 1))%nat) in *. set (r := (p mod (n - 1))%nat) in *. unfold entry, err_index.
      destruct (Nat.ltb_spec r i).
      + destruct (Nat.eqb_spec i r); [lia|]. destruct (Nat.ltb_spec r i); [|lia]. f_equal. nia.
      + destruct (Nat.eqb_spec i (S r)); [lia|]. destruct (Nat.ltb_spec (S r) i); [lia|]. f_equal. nia.
  Qed.
  Lemma entry_ky (n : nat) (errs ky : list F) : length ky = n -> map (fun i => entry n errs ky i i) (seq 0 n) = ky.
  Proof.
    intros H. apply (nth_ext _ _ 0 0); [rewrite map_length, seq_length; lia|]. intros i Hi. rewrite map_length, seq_length in Hi.
    rewrite nth_indep with (d' := entry n errs ky 0 0) by (rewrite map_length, seq_length; exact Hi).
    rewrite (map_nth (fun i => entry n errs ky i i)), seq_nth by exact Hi. unfold entry. rewrite Nat.eqb_refl. reflexivity.
  Qed.

  (** each computed error term is the product of its two polynomials *)
  Lemma errors_ok (outer inner : nat) (a b : list poly) : (0 < inner)%nat -> length a = length b ->
    (length a <= outer * inner)%nat -> Forall wfp a -> Forall wfp b ->
    exists es, compute_errors NC outer inner a b = Some es /\ length es = outer /\
      (forall g, (g < outer)%nat -> length (nth g es []) = num_error_terms inner) /\
      forall g i j, (i < inner)%nat -> (j < inner)%nat -> i <> j ->
        nth (err_index inner i j) (nth g es []) 0 = rdot NC (nth (g * inner + i) a []) (nth (g * inner + j) b []).
  Proof.
    intros HI HL HC Wa Wb. unfold compute_errors. rewrite HL, Nat.eqb_refl. cbn [negb]. rewrite <- HL.
    destruct (Nat.ltb_spec (outer * inner) (length a)); [lia|]. unfold chunks. destruct (Nat.eqb_spec inner 0); [lia|].
    set (ca := chunks_go (length a) inner a). set (cb := chunks_go (length b) inner b).
    assert (La : (length ca <= outer)%nat) by (apply (len_chunks inner HI (length a) a (le_n _)); lia).
    assert (Lab : length ca = length cb).
    { assert (A1 := len_chunks inner HI (length a) a (le_n _)). assert (A2 := len_chunks inner HI (length b) b (le_n _)).
      fold ca in A1. fold cb in A2. rewrite HL in A1. apply Nat.le_antisymm; [apply A1, A2; lia|apply A2, A1; lia]. }
    set (f := fun ab : list poly * list poly => _).
    assert (FS : forall ab, f ab = Some (map (fun ij => match nth_error (fst ab) (fst ij), nth_error (snd ab) (snd ij) with
                                   | Some l, Some r => p_revdot NC l r | _, _ => 0 end) (off_diagonal inner))).
    { intros ab. unfold f. rewrite fixed_ok, map_length, off_len, Nat.eqb_refl. reflexivity. }
    destruct (opt_all_ok f (combine ca cb)) as (es & E & L & V).
    { apply Forall_forall. intros ab _. rewrite FS. congruence. }
    rewrite E. rewrite combine_length, Lab, Nat.min_id in L. rewrite fixed_ok, take_pad by lia. rewrite app_length, repeat_length.
    destruct (Nat.eqb_spec (length es + (outer - length es)) outer); [|lia].
    exists (es ++ repeat (repeat f0 (num_error_terms inner)) (outer - length es)). split; [reflexivity|]. split; [rewrite app_length, repeat_length; lia|].
    assert (VE : forall g, (g < length ca)%nat -> nth g es [] = map (fun ij => match nth_error (nth g ca []) (fst ij), nth_error (nth g cb []) (snd ij) with
                                   | Some l, Some r => p_revdot NC l r | _, _ => 0 end) (off_diagonal inner)).
    { intros g Hg. specialize (V g ([], []) [] ltac:(rewrite combine_length; lia)). rewrite combine_nth in V by exact Lab.
      rewrite FS in V. cbn [fst snd] in V. congruence. }
    assert (VO : forall g, (length ca <= g < outer)%nat ->
      nth g (es ++ repeat (repeat f0 (num_error_terms inner)) (outer - length es)) [] = repeat f0 (num_error_terms inner)).
    { intros g Hg. rewrite app_nth2 by lia.
      assert (Q : forall (T : Type) (x d : T) n k, (k < n)%nat -> nth k (repeat x n) d = x).
      { intros T x d n0. induction n0 as [|n0 IH]; intros [|k] Hk; cbn; auto; try lia. apply IH. lia. }
      apply Q. lia. }
    split.
    - intros g Hg. destruct (Nat.lt_ge_cases g (length ca)) as [G|G].
      + rewrite app_nth1 by lia. rewrite VE by exact G. rewrite map_length. apply off_len.
      + rewrite VO by lia. apply repeat_length.
    - intros g i j Hi Hj Hd. destruct (Nat.lt_ge_cases g (length ca)) as [G|G].
      + rewrite app_nth1 by lia. rewrite VE by exact G.
        set (h := fun ij : nat * nat => _).
        rewrite nth_indep with (d' := h (0, 0)%nat) by (rewrite map_length, off_len, num_errors; apply err_index_lt; assumption).
        rewrite (map_nth h), off_nth by assumption. unfold h. cbn [fst snd].
        assert (Pa : forall k, (k < inner)%nat -> nth k (nth g ca []) [] = nth (g * inner + k) a []).
        { intros k Hk. destruct (chunk_pad inner a ([] : poly) g HI) as (_ & _ & Q). fold ca in Q. rewrite <- Q by exact Hk. symmetry. apply nth_pad. }
        assert (Pb : forall k, (k < inner)%nat -> nth k (nth g cb []) [] = nth (g * inner + k) b []).
        { intros k Hk. destruct (chunk_pad inner b ([] : poly) g HI) as (_ & _ & Q). fold cb in Q. rewrite <- Q by exact Hk. symmetry. apply nth_pad. }
        rewrite <- Pa, <- Pb by assumption. rewrite (nth_error_d (nth g ca []) i), (nth_error_d (nth g cb []) j).
        pose proof (Pa i Hi) as Ea. pose proof (Pb j Hj) as Eb. rewrite (nth_error_d (nth g ca []) i) in Ea. rewrite (nth_error_d (nth g cb []) j) in Eb.
        destruct (nth_error (nth g ca []) i) as [l|]; destruct (nth_error (nth g cb []) j) as [r|].
        * apply revdot_rdot; [rewrite Ea|rewrite Eb]; apply wf_nth; assumption.
        * symmetry. apply rdot_nil_r.
        * symmetry. apply rdot_nil_l.
        * symmetry. apply rdot_nil_l.
      + assert (HA : (length a <= g * inner)%nat) by (apply (len_chunks inner HI (length a) a (le_n _)); exact G).
        rewrite (nth_overflow a) by lia. rewrite rdot_nil_l. destruct (Nat.lt_ge_cases g outer) as [O|O].
        * rewrite VO by lia. apply nth_rep.
        * rewrite (nth_overflow (es ++ _)) by (rewrite app_length, repeat_length; lia). destruct (err_index inner i j); reflexivity.
  Qed.
  Lemma errors_none (outer inner : nat) (a b : list poly) :
    (length a <> length b \/ outer * inner < length a)%nat -> compute_errors NC outer inner a b = None.
  Proof.
    intros H. unfold compute_errors. destruct (Nat.eqb_spec (length a) (length b)); cbn [negb]; [|reflexivity].
    destruct (Nat.ltb_spec (outer * inner) (length a)); [reflexivity|lia].
  Qed.
End FoldP.
