(** Proofs about the reference-counted virtual wires of the s(X, y) evaluator.

    The invariant relates the table to the multiset [H] of outstanding handles;
    the potential [phi] (buffer entries and pending values weighted by arbitrary
    wire values) is what freeing preserves and enforcing increases. *)
From Coq Require Import List Arith Lia Bool.
From Verif Require Import FieldDef ArithModel ArithSpec ArithProofs FFTModel FFTProofs SparseModel SparseSpec
  SparseProofs SparseProofs2 CircModel SyModel CircSpec CircProofs CircProofs2.
Import ListNotations.
Local Opaque list_sum.

Section LinInv.
  Variable F : Field.
  Add Field FFy1 : (f_theory F).
  Open Scope f_scope.
  Variables (W L : Type) (add_term : L -> W -> Coeff F -> L) (gain : L -> Coeff F -> L).
  Variables (wv : W -> F) (ok : W -> Prop) (R : L -> F -> F -> Prop).
  Hypothesis Hterm : forall l v g w c, ok w -> R l v g -> R (add_term l w c) (v + c_value c * g * wv w) g.
  Hypothesis Hgain : forall l v g c, R l v g -> R (gain l c) v (g * c_value c).

  Definition op_ok (op : lcall F W) : Prop :=
    match op with
    | LTerm w _ | LAdd w | LSub w => ok w
    | LGain _ => True
    | LExtend ts => Forall (fun t => ok (fst t)) ts
    end.

  Lemma lin_spec_cons op ops :
    lin_spec wv (op :: ops)
    = call_sum wv op + (match op with LGain c => c_value c | _ => 1 end) * lin_spec wv ops.
  Proof.
    unfold lin_spec at 1. cbn [length]. rewrite fsum_S_first. cbn [firstn nth_error].
    replace (gains (@nil (lcall F W))) with (1 : F) by reflexivity.
    rewrite (fsum_ext F (length ops) _
      (fun i => (match op with LGain c => c_value c | _ => 1 end) *
         (gains (firstn i ops) *
          match nth_error ops i with Some o => call_sum wv o | None => 0 end))).
    - rewrite fsum_scale. fold (lin_spec wv ops). ring.
    - intros i _. unfold gains. cbn [map]. unfold lprod. cbn [fold_right]. ring.
  Qed.

  Lemma lin_run_inv ops : forall l v g, Forall op_ok ops -> R l v g ->
    exists g', R (lin_run add_term gain ops l) (v + g * lin_spec wv ops) g'.
  Proof.
    induction ops as [|op ops IH]; intros l v g Hok HR.
    - exists g. unfold lin_run, lin_spec. cbn. replace (v + g * 0) with v by ring. exact HR.
    - inversion Hok as [|? ? H1 H2]; subst. rewrite lin_spec_cons.
      unfold lin_run in *. cbn [fold_left].
      destruct op as [w c|c|w|w|ts]; cbn [lin_step op_ok call_sum] in *.
      + destruct (IH _ _ _ H2 (Hterm _ _ _ _ c H1 HR)) as [g' Hg]. exists g'.
        match goal with |- R _ ?e _ => match type of Hg with R _ ?e' _ => replace e with e' by ring end end. exact Hg.
      + destruct (IH _ _ _ H2 (Hgain _ _ _ c HR)) as [g' Hg]. exists g'.
        match goal with |- R _ ?e _ => match type of Hg with R _ ?e' _ => replace e with e' by ring end end. exact Hg.
      + destruct (IH _ _ _ H2 (Hterm _ _ _ _ COne H1 HR)) as [g' Hg]. exists g'.
        match goal with |- R _ ?e _ => match type of Hg with R _ ?e' _ => replace e with e' by (cbn [c_value]; ring) end end. exact Hg.
      + destruct (IH _ _ _ H2 (Hterm _ _ _ _ CNegOne H1 HR)) as [g' Hg]. exists g'.
        match goal with |- R _ ?e _ => match type of Hg with R _ ?e' _ => replace e with e' by (cbn [c_value]; ring) end end. exact Hg.
      + assert (T : forall ts l v, Forall (fun t => ok (fst t)) ts -> R l v g ->
          R (fold_left (fun l t => add_term l (fst t) (snd t)) ts l)
            (v + g * lsum (map (fun t => c_value (snd t) * wv (fst t)) ts)) g).
        { clear - Hterm. induction ts as [|[w c] ts IHt]; intros l v Hts HR; cbn [fold_left].
          - unfold lsum. cbn. replace (v + g * 0) with v by ring. exact HR.
          - inversion Hts as [|? ? H1 H2]; subst. pose proof (IHt _ _ H2 (Hterm _ _ _ _ c H1 HR)) as Q.
            unfold lsum in *. cbn [map fold_right fst snd] in *.
            match goal with |- R _ ?e _ => match type of Q with R _ ?e' _ => replace e with e' by ring end end. exact Q. }
        destruct (IH _ _ _ H2 (T ts l v H1 HR)) as [g' Hg]. exists g'.
        match goal with |- R _ ?e _ => match type of Hg with R _ ?e' _ => replace e with e' by ring end end. exact Hg.
  Qed.
End LinInv.

Lemma nth_upd_same {A : Type} (l : list A) i v d : i < length l -> nth i (upd l i v) d = v.
Proof. intros H. rewrite nth_upd, Nat.eqb_refl. destruct (Nat.ltb_spec i (length l)); [reflexivity|lia]. Qed.
Lemma nth_upd_other {A : Type} (l : list A) i v j d : j <> i -> nth j (upd l i v) d = nth j l d.
Proof. intros H. rewrite nth_upd. destruct (Nat.eqb_spec j i); [lia|reflexivity]. Qed.

(** number of handles of virtual wire i in a list *)
Definition is_v (i : nat) (w : widx) : bool := match w with IV j => Nat.eqb j i | _ => false end.
Fixpoint cnt (i : nat) (l : list widx) : nat :=
  match l with [] => 0 | w :: r => (if is_v i w then 1 else 0) + cnt i r end.
Lemma cnt_app i l r : cnt i (l ++ r) = cnt i l + cnt i r.
Proof. induction l as [|w l IH]; simpl; [reflexivity|]. rewrite IH. lia. Qed.
Lemma cnt_in i l : In (IV i) l -> 0 < cnt i l.
Proof.
  induction l as [|w l IH]; simpl; [tauto|]. intros [->|H].
  - simpl. rewrite Nat.eqb_refl. lia.
  - specialize (IH H). lia.
Qed.
Lemma cnt_pos i l : 0 < cnt i l -> In (IV i) l.
Proof.
  induction l as [|w l IH]; simpl; [lia|]. destruct w as [j|j|j|j|j]; simpl; auto.
  destruct (Nat.eqb_spec j i) as [->|]; auto.
Qed.
Lemma cnt_incl l H i : incl l H -> cnt i H = 0 -> cnt i l = 0.
Proof.
  intros Hi Hc. destruct (cnt i l) eqn:E; [reflexivity|]. exfalso.
  assert (Hin : In (IV i) l) by (apply cnt_pos; lia). apply Hi, cnt_in in Hin. lia.
Qed.

Lemma NoDup_app_snoc {A : Type} (l : list A) (a : A) : NoDup l -> ~ In a l -> NoDup (l ++ [a]).
Proof.
  induction l as [|b l IH]; intros H Hn; simpl.
  - constructor; [tauto|constructor].
  - inversion H; subst. constructor.
    + rewrite in_app_iff. cbn [In]. intros [Hi|[->|[]]]; [tauto|]. apply Hn. left. reflexivity.
    + apply IH; auto. intros Hi. apply Hn. right. exact Hi.
Qed.

Section Table.
  Variable F : Field.
  Add Field FFy2 : (f_theory F).
  Open Scope f_scope.
  Variable G : nat.                         (* number of gates in the buffers *)
  Variable v : kind -> nat -> F.            (* any weights of the gate wires *)

  Definition dead : vwire F := mk_vwire 0 [] CZero.
  Definition wat (t : vtable F) (i : nat) : vwire F := nth i (vt_wires t) dead.
  Definition tms (w : vwire F) : list widx := map fst (vw_terms w).
  Definition all_terms (ws : list (vwire F)) : list widx := flat_map tms ws.

  (** value of a handle *)
  Definition D (den : nat -> F) (w : widx) : F :=
    match w with
    | IA g => v KA g | IB g => v KB g | IC g => v KC g | ID g => v KD g
    | IV i => den i
    end.
  Definition gok (w : widx) : Prop :=
    match w with IA g | IB g | IC g | ID g => (g < G)%nat | IV _ => True end.
  Definition tsum (den : nat -> F) (ts : list (widx * Coeff F)) : F :=
    lsum (map (fun tc => c_value (snd tc) * D den (fst tc)) ts).

  Record Inv (t : vtable F) (H : list widx) (P : list nat) (den : nat -> F) (rk : nat -> nat) : Prop := mk_Inv {
    i_rc : forall i, vw_rc (wat t i) = (cnt i H + cnt i (all_terms (vt_wires t)))%nat;
    i_free : forall i, In i (vt_free t) <->
               ((i < length (vt_wires t))%nat /\ vw_rc (wat t i) = 0%nat /\ ~ In i P);
    i_nodup : NoDup (vt_free t);
    i_dead : forall i, vw_rc (wat t i) = 0%nat ->
               vw_terms (wat t i) = [] /\ (~ In i P -> vw_value (wat t i) = CZero);
    i_den : forall i, (0 < vw_rc (wat t i))%nat -> den i = tsum den (vw_terms (wat t i));
    i_rank : forall i j, In (IV j) (tms (wat t i)) -> (rk j < rk i)%nat;
    i_gok : forall i, Forall gok (tms (wat t i));
    i_fly : forall i, In i P -> (i < length (vt_wires t))%nat /\ vw_rc (wat t i) = 0%nat;
    i_len : length (vt_a t) = G /\ length (vt_b t) = G /\ length (vt_c t) = G /\ length (vt_d t) = G
  }.

  Lemma Inv_H t H H' P den rk : (forall i, cnt i H = cnt i H') -> Inv t H P den rk -> Inv t H' P den rk.
  Proof. intros E [I1 I2 I3 I4 I5 I6 I7 I8 I9]. constructor; auto. intros i. rewrite <- E. apply I1. Qed.

  Definition buf (l : list F) (k : kind) : F := fsum G (fun g => nth g l 0 * v k g).
  Definition vsum (den : nat -> F) (ws : list (vwire F)) : F :=
    fsum (length ws) (fun i => c_value (vw_value (nth i ws dead)) * den i).
  Definition bufs (t : vtable F) : F :=
    buf (vt_a t) KA + buf (vt_b t) KB + buf (vt_c t) KC + buf (vt_d t) KD.
  Definition phi (den : nat -> F) (t : vtable F) : F := bufs t + vsum den (vt_wires t).

  Lemma fsum_change n (f f' : nat -> F) k : (k < n)%nat -> (forall i, i <> k -> f' i = f i) ->
    fsum n f' = fsum n f + (f' k - f k).
  Proof.
    revert k. induction n as [|n IH]; intros k Hk Hf; [lia|].
    cbn [fsum]. destruct (Nat.eq_dec k n) as [->|Hne].
    - rewrite (fsum_ext F n f' f); [ring|]. intros i Hi. apply Hf. lia.
    - rewrite (IH k) by (auto; lia). rewrite (Hf n) by auto. ring.
  Qed.

  Lemma vsum_upd den ws i w : (i < length ws)%nat ->
    vsum den (upd ws i w) = vsum den ws + (c_value (vw_value w) - c_value (vw_value (nth i ws dead))) * den i.
  Proof.
    intros H. unfold vsum. rewrite upd_length.
    rewrite (fsum_change _ (fun j => c_value (vw_value (nth j ws dead)) * den j) _ i); auto.
    - rewrite nth_upd_same by auto. ring.
    - intros j Hj. rewrite nth_upd_other by auto. reflexivity.
  Qed.

  Lemma bump_ok (l : list F) i z k : (i < length l)%nat -> length l = G ->
    exists l', bump l i z = Some l' /\ length l' = G /\ buf l' k = buf l k + z * v k i.
  Proof.
    intros Hi Hl. unfold bump.
    destruct (nth_error l i) as [o|] eqn:E; [|apply nth_error_None in E; lia].
    assert (Ho : nth i l 0 = o) by (apply nth_error_nth; exact E).
    eexists. split; [reflexivity|]. split; [rewrite upd_length; exact Hl|].
    unfold buf. rewrite (fsum_change _ (fun g => nth g l 0 * v k g) _ i); [|lia|].
    - rewrite nth_upd_same by auto. rewrite Ho. ring.
    - intros j Hj. rewrite nth_upd_other by auto. reflexivity.
  Qed.

  Lemma wat_lt t i : (0 < vw_rc (wat t i))%nat -> (i < length (vt_wires t))%nat.
  Proof.
    intros H. destruct (Nat.lt_ge_cases i (length (vt_wires t))) as [|Hge]; auto.
    unfold wat in H. rewrite nth_overflow in H by auto. simpl in H. lia.
  Qed.
  Lemma wat_err t i : (i < length (vt_wires t))%nat -> nth_error (vt_wires t) i = Some (wat t i).
  Proof. intros H. apply nth_error_nth'. exact H. Qed.

  Lemma cnt_terms_upd ws i w j : (i < length ws)%nat ->
    (cnt j (all_terms (upd ws i w)) + cnt j (tms (nth i ws dead)) =
     cnt j (all_terms ws) + cnt j (tms w))%nat.
  Proof.
    revert i. induction ws as [|z ws IH]; intros [|i] H; simpl in H; try lia; unfold all_terms; cbn [upd flat_map nth].
    - rewrite !cnt_app. lia.
    - rewrite !cnt_app. specialize (IH i ltac:(lia)). unfold all_terms in IH. lia.
  Qed.
  Lemma total_upd ws i w : (i < length ws)%nat ->
    (list_sum (map vw_rc (upd ws i w)) + vw_rc (nth i ws dead) = list_sum (map vw_rc ws) + vw_rc w)%nat.
  Proof.
    revert i. induction ws as [|z ws IH]; intros [|i] H; simpl in H; try lia; cbn [upd map nth]; rewrite !list_sum_cons.
    - lia.
    - specialize (IH i ltac:(lia)). lia.
  Qed.

  Lemma wat_upd t i w j : (i < length (vt_wires t))%nat ->
    wat (set_wires t (upd (vt_wires t) i w)) j = if Nat.eqb j i then w else wat t j.
  Proof.
    intros H. unfold wat, set_wires. cbn [vt_wires]. rewrite nth_upd.
    destruct (Nat.ltb_spec i (length (vt_wires t))); [|lia]. rewrite andb_true_r. reflexivity.
  Qed.

  Lemma tms_in_all t i j : In (IV j) (tms (wat t i)) -> (0 < cnt j (all_terms (vt_wires t)))%nat.
  Proof.
    intros H. apply cnt_in. unfold all_terms. apply in_flat_map.
    destruct (Nat.lt_ge_cases i (length (vt_wires t))) as [Hlt|Hge].
    - exists (wat t i). split; [apply nth_In; exact Hlt|exact H].
    - unfold wat in H. rewrite nth_overflow in H by auto. contradiction.
  Qed.

  (** changing only the value of a live wire *)
  Lemma Inv_value t H P den rk i val :
    Inv t H P den rk -> (0 < vw_rc (wat t i))%nat ->
    Inv (set_wires t (upd (vt_wires t) i (mk_vwire (vw_rc (wat t i)) (vw_terms (wat t i)) val))) H P den rk.
  Proof.
    intros [I1 I2 I3 I4 I5 I6 I7 I8 I9] Hrc. assert (Hlt := wat_lt t i Hrc).
    set (w' := mk_vwire (vw_rc (wat t i)) (vw_terms (wat t i)) val).
    assert (RC : forall j, vw_rc (wat (set_wires t (upd (vt_wires t) i w')) j) = vw_rc (wat t j)).
    { intros j. rewrite wat_upd by auto. destruct (Nat.eqb_spec j i) as [->|]; reflexivity. }
    assert (TM : forall j, vw_terms (wat (set_wires t (upd (vt_wires t) i w')) j) = vw_terms (wat t j)).
    { intros j. rewrite wat_upd by auto. destruct (Nat.eqb_spec j i) as [->|]; reflexivity. }
    constructor; cbn [set_wires vt_wires vt_free vt_a vt_b vt_c vt_d].
    - intros j. rewrite RC, I1. f_equal.
      pose proof (cnt_terms_upd (vt_wires t) i w' j Hlt) as Q. unfold w' at 2 in Q. unfold tms in Q. cbn [vw_terms] in Q.
      unfold wat in Q. lia.
    - intros j. rewrite RC, upd_length. apply I2.
    - exact I3.
    - intros j. rewrite RC, TM. intros Hj. destruct (I4 j Hj) as [A B]. split; [exact A|].
      intros Hp. rewrite wat_upd by auto. destruct (Nat.eqb_spec j i) as [->|]; [lia|]. auto.
    - intros j. rewrite RC, TM. apply I5.
    - intros j k. unfold tms. rewrite TM. apply I6.
    - intros j. unfold tms. rewrite TM. apply I7.
    - intros j. rewrite RC, upd_length. apply I8.
    - exact I9.
  Qed.

  (** [VirtualTable::add] on a live handle *)
  Lemma vt_add_ok t H P den rk w c :
    Inv t H P den rk -> In w H -> gok w ->
    exists t', vt_add t w c = Some t' /\ Inv t' H P den rk /\
      phi den t' = phi den t + c_value c * D den w /\
      total_rc t' = total_rc t /\ vt_free t' = vt_free t /\
      length (vt_wires t') = length (vt_wires t) /\
      (forall i, vw_rc (wat t i) = 0%nat -> wat t' i = wat t i).
  Proof.
    intros HI Hin Hok. destruct HI as [I1 I2 I3 I4 I5 I6 I7 I8 (La & Lb & Lc & Ld)].
    destruct w as [g|g|g|g|i]; cbn [vt_add gok D] in *.
    - destruct (bump_ok (vt_a t) g (c_value c) KA) as (l' & -> & Ll & Eb); [lia|lia|].
      eexists. split; [reflexivity|]. split; [constructor; cbn; auto|].
      split; [unfold phi, bufs; cbn [vt_a vt_b vt_c vt_d vt_wires]; rewrite Eb; ring|]. repeat split; auto.
    - destruct (bump_ok (vt_b t) g (c_value c) KB) as (l' & -> & Ll & Eb); [lia|lia|].
      eexists. split; [reflexivity|]. split; [constructor; cbn; auto|].
      split; [unfold phi, bufs; cbn [vt_a vt_b vt_c vt_d vt_wires]; rewrite Eb; ring|]. repeat split; auto.
    - destruct (bump_ok (vt_c t) g (c_value c) KC) as (l' & -> & Ll & Eb); [lia|lia|].
      eexists. split; [reflexivity|]. split; [constructor; cbn; auto|].
      split; [unfold phi, bufs; cbn [vt_a vt_b vt_c vt_d vt_wires]; rewrite Eb; ring|]. repeat split; auto.
    - destruct (bump_ok (vt_d t) g (c_value c) KD) as (l' & -> & Ll & Eb); [lia|lia|].
      eexists. split; [reflexivity|]. split; [constructor; cbn; auto|].
      split; [unfold phi, bufs; cbn [vt_a vt_b vt_c vt_d vt_wires]; rewrite Eb; ring|]. repeat split; auto.
    - assert (Hrc : (0 < vw_rc (wat t i))%nat) by (rewrite I1; apply cnt_in in Hin; lia).
      assert (Hlt := wat_lt t i Hrc). rewrite (wat_err t i Hlt).
      eexists. split; [reflexivity|]. split; [apply Inv_value; auto; constructor; auto|].
      split; [|split; [|split; [reflexivity|split]]].
      + unfold phi, bufs, set_wires. cbn [vt_a vt_b vt_c vt_d vt_wires]. rewrite vsum_upd by auto.
        cbn [vw_value]. rewrite c_add_ok. unfold wat. ring.
      + unfold total_rc, set_wires. cbn [vt_wires].
        match goal with |- list_sum (map _ (upd _ _ ?w')) = _ => pose proof (total_upd (vt_wires t) i w' Hlt) as Q end.
        cbn [vw_rc] in Q. unfold wat in *. lia.
      + unfold set_wires. cbn [vt_wires]. apply upd_length.
      + intros j Hj. rewrite wat_upd by auto. destruct (Nat.eqb_spec j i) as [->|]; [lia|reflexivity].
  Qed.

  (** [VirtualTable::free]: consumes one handle, preserves the potential *)
  Lemma vt_free_ok : forall fuel t w H P den rk,
    Inv t (w :: H) P den rk -> gok w -> (total_rc t < fuel)%nat ->
    exists t', vt_free_rec fuel t w = Some t' /\ Inv t' H P den rk /\
      phi den t' = phi den t /\ (total_rc t' <= total_rc t)%nat /\
      length (vt_wires t') = length (vt_wires t) /\
      (forall i, vw_rc (wat t i) = 0%nat -> wat t' i = wat t i).
  Proof.
    induction fuel as [|fuel IH]; intros t w H P den rk HI Hok Hf; [lia|].
    cbn [vt_free_rec].
    assert (Hgate : (forall i, is_v i w = false) ->
      exists t', Some t = Some t' /\ Inv t' H P den rk /\ phi den t' = phi den t /\ (total_rc t' <= total_rc t)%nat /\
        length (vt_wires t') = length (vt_wires t) /\ (forall i, vw_rc (wat t i) = 0%nat -> wat t' i = wat t i)).
    { intros Hw. exists t. split; [reflexivity|]. split.
      - apply (Inv_H _ (w :: H)); [|exact HI]. intros i. cbn [cnt]. rewrite Hw. reflexivity.
      - repeat split; auto. }
    destruct w as [g|g|g|g|i]; try (apply Hgate; reflexivity). clear Hgate.
    assert (Hrc : (0 < vw_rc (wat t i))%nat).
    { rewrite (i_rc _ _ _ _ _ HI). cbn [cnt is_v]. rewrite Nat.eqb_refl. lia. }
    assert (Hlt := wat_lt t i Hrc). rewrite (wat_err t i Hlt).
    destruct (vw_rc (wat t i)) as [|rc] eqn:Erc; [lia|].
    destruct rc as [|rc].
    - (* last handle: push the value into the terms *)
      set (value := vw_value (wat t i)). set (terms := vw_terms (wat t i)).
      set (t1 := set_wires t (upd (vt_wires t) i (mk_vwire 0 [] value))).
      assert (W1 : forall j, wat t1 j = if Nat.eqb j i then mk_vwire 0 [] value else wat t j)
        by (intros j; apply wat_upd; exact Hlt).
      assert (Ci : (cnt i H = 0 /\ cnt i (all_terms (vt_wires t)) = 0)%nat).
      { pose proof (i_rc _ _ _ _ _ HI i) as Q. rewrite Erc in Q. cbn [cnt is_v] in Q. rewrite Nat.eqb_refl in Q. lia. }
      assert (HniP : ~ In i P) by (intros Hp; destruct (i_fly _ _ _ _ _ HI i Hp); congruence).
      assert (Lw1 : length (vt_wires t1) = length (vt_wires t)) by apply upd_length.
      assert (CT : forall j, (cnt j (all_terms (vt_wires t1)) + cnt j (map fst terms) = cnt j (all_terms (vt_wires t)))%nat).
      { intros j. pose proof (cnt_terms_upd (vt_wires t) i (mk_vwire 0 [] value) j Hlt) as Q.
        unfold tms in Q. cbn [vw_terms map cnt] in Q. unfold t1, set_wires, terms, wat. cbn [vt_wires]. lia. }
      assert (HI1 : Inv t1 (map fst terms ++ H) (i :: P) den rk).
      { destruct HI as [I1 I2 I3 I4 I5 I6 I7 I8 I9]. constructor.
        - intros j. rewrite W1, cnt_app. specialize (CT j). specialize (I1 j). cbn [cnt is_v] in I1.
          destruct (Nat.eqb_spec j i) as [->|Hne]; cbn [vw_rc]; [lia|].
          destruct (Nat.eqb_spec i j); [congruence|]. lia.
        - intros j. rewrite W1, Lw1. change (vt_free t1) with (vt_free t). rewrite I2. cbn [In].
          destruct (Nat.eqb_spec j i) as [->|Hne]; cbn [vw_rc]; intuition congruence.
        - exact I3.
        - intros j. rewrite W1. destruct (Nat.eqb_spec j i) as [->|Hne]; cbn [vw_rc vw_terms vw_value In].
          + intros _. split; [reflexivity|]. tauto.
          + intros Hj. destruct (I4 j Hj) as [A B]. split; [exact A|]. intros Hn. apply B. tauto.
        - intros j. rewrite W1. destruct (Nat.eqb_spec j i) as [->|Hne]; cbn [vw_rc]; [lia|apply I5].
        - intros j k. rewrite W1. destruct (Nat.eqb_spec j i) as [->|Hne]; [intros []|apply I6].
        - intros j. rewrite W1. destruct (Nat.eqb_spec j i) as [->|Hne]; [constructor|apply I7].
        - intros j Hj. rewrite W1, Lw1. destruct (Nat.eqb_spec j i) as [->|Hne]; cbn [vw_rc]; [auto|].
          apply I8. destruct Hj; [congruence|assumption].
        - exact I9. }
      assert (Tot1 : (S (total_rc t1) = total_rc t)%nat).
      { pose proof (total_upd (vt_wires t) i (mk_vwire 0 [] value) Hlt) as Q. cbn [vw_rc] in Q.
        unfold total_rc, t1, set_wires. cbn [vt_wires]. unfold wat in Erc. lia. }
      assert (Phi1 : phi den t1 = phi den t).
      { unfold phi, bufs, t1, set_wires. cbn [vt_a vt_b vt_c vt_d vt_wires]. rewrite vsum_upd by auto.
        cbn [vw_value]. unfold value, wat. ring. }
      (* the loop over the terms *)
      assert (Loop : forall ts t1, Inv t1 (map fst ts ++ H) (i :: P) den rk -> Forall gok (map fst ts) ->
        (total_rc t1 < fuel)%nat ->
        exists t2, fold_left (fun acc tc =>
                     match acc with
                     | None => None
                     | Some t' => match vt_add t' (fst tc) (c_mul value (snd tc)) with
                                  | None => None
                                  | Some t'' => vt_free_rec fuel t'' (fst tc)
                                  end
                     end) ts (Some t1) = Some t2 /\
          Inv t2 H (i :: P) den rk /\ phi den t2 = phi den t1 + c_value value * tsum den ts /\
          (total_rc t2 <= total_rc t1)%nat /\ length (vt_wires t2) = length (vt_wires t1) /\
          (forall j, vw_rc (wat t1 j) = 0%nat -> wat t2 j = wat t1 j)).
      { clear - IH. induction ts as [|[w c] ts IHt]; intros t1 HI1 Hg Hfu; cbn [fold_left map fst snd app] in *.
        - exists t1. split; [reflexivity|]. split; [exact HI1|]. split; [unfold tsum, lsum; cbn; ring|]. auto.
        - inversion Hg as [|? ? Hw Hg']; subst.
          destruct (vt_add_ok t1 _ _ den rk w (c_mul value c) HI1) as (t1a & -> & HIa & Pa & Ta & _ & La & Fa);
            [left; reflexivity|exact Hw|].
          destruct (IH t1a w _ _ den rk HIa Hw ltac:(lia)) as (t1b & -> & HIb & Pb & Tb & Lb & Fb).
          destruct (IHt t1b HIb Hg' ltac:(lia)) as (t2 & -> & HI2 & P2 & T2 & L2 & F2).
          exists t2. split; [reflexivity|]. split; [exact HI2|]. split.
          + rewrite P2, Pb, Pa, c_mul_ok. unfold tsum, lsum. cbn [map fold_right fst snd]. ring.
          + split; [lia|]. split; [congruence|]. intros j Hj.
            assert (E1 : wat t1a j = wat t1 j) by auto.
            assert (E2 : wat t1b j = wat t1a j) by (apply Fb; rewrite E1; exact Hj).
            rewrite F2 by (rewrite E2, E1; exact Hj). congruence. }
      destruct (Loop terms t1 HI1 (i_gok _ _ _ _ _ HI i) ltac:(lia)) as (t2 & E2 & HI2 & P2 & T2 & L2 & F2).
      match goal with |- context [fold_left ?f ?a ?b] => replace (fold_left f a b) with (Some t2) end.
      assert (Wi : wat t2 i = mk_vwire 0 [] value).
      { rewrite F2; rewrite W1, Nat.eqb_refl; reflexivity. }
      assert (Hlt2 : (i < length (vt_wires t2))%nat) by lia.
      rewrite (wat_err t2 i Hlt2), Wi. cbn [vw_rc vw_terms].
      set (t3 := mk_vtable _ _ _ _ _ _).
      assert (W3 : forall j, wat t3 j = if Nat.eqb j i then dead else wat t2 j).
      { intros j. exact (wat_upd t2 i dead j Hlt2). }
      exists t3. split; [reflexivity|]. split; [|split; [|split; [|split]]].
      + destruct HI2 as [I1 I2 I3 I4 I5 I6 I7 I8 I9].
        assert (RC : forall j, vw_rc (wat t3 j) = vw_rc (wat t2 j)).
        { intros j. rewrite W3. destruct (Nat.eqb_spec j i) as [->|]; [rewrite Wi|]; reflexivity. }
        assert (TM : forall j, vw_terms (wat t3 j) = vw_terms (wat t2 j)).
        { intros j. rewrite W3. destruct (Nat.eqb_spec j i) as [->|]; [rewrite Wi|]; reflexivity. }
        assert (L3 : length (vt_wires t3) = length (vt_wires t2)) by apply upd_length.
        constructor.
        * intros j. rewrite RC, I1. f_equal. pose proof (cnt_terms_upd (vt_wires t2) i dead j Hlt2) as Q.
          change (nth i (vt_wires t2) dead) with (wat t2 i) in Q. rewrite Wi in Q. unfold tms in Q. cbn in Q.
          unfold t3. cbn [vt_wires]. change (mk_vwire 0 [] CZero) with dead. lia.
        * intros j. rewrite RC, L3. unfold t3. cbn [vt_free]. rewrite in_app_iff, I2. cbn [In].
          split; [intros [(A & B & C)|[<-|[]]]|].
          -- tauto.
          -- rewrite Wi. auto.
          -- intros (A & B & C). destruct (Nat.eq_dec i j) as [->|Hne]; [auto|]. left. intuition.
        * unfold t3. cbn [vt_free]. apply NoDup_app_snoc; auto. rewrite I2. cbn [In]. tauto.
        * intros j. rewrite RC, TM. intros Hj. destruct (I4 j Hj) as [A B]. split; [exact A|]. intros Hp.
          rewrite W3. destruct (Nat.eqb_spec j i) as [->|Hne]; [reflexivity|]. apply B. cbn [In]. intuition.
        * intros j. rewrite RC, TM. apply I5.
        * intros j k. unfold tms. rewrite TM. apply I6.
        * intros j. unfold tms. rewrite TM. apply I7.
        * intros j Hj. rewrite RC, L3. apply I8. right. exact Hj.
        * exact I9.
      + assert (E3 : phi den t3 = phi den t2 - c_value value * den i).
        { unfold phi, bufs, t3. cbn [vt_a vt_b vt_c vt_d vt_wires]. rewrite vsum_upd by auto.
          change (nth i (vt_wires t2) dead) with (wat t2 i). rewrite Wi. cbn [vw_value c_value]. ring. }
        rewrite E3, P2, Phi1. rewrite (i_den _ _ _ _ _ HI i) by lia. fold terms. ring.
      + assert (E3 : (total_rc t3 = total_rc t2)%nat).
        { pose proof (total_upd (vt_wires t2) i dead Hlt2) as Q. change (nth i (vt_wires t2) dead) with (wat t2 i) in Q.
          rewrite Wi in Q. cbn [vw_rc dead] in Q. unfold total_rc, t3. cbn [vt_wires].
          change (mk_vwire 0 [] CZero) with dead. lia. }
        lia.
      + unfold t3. cbn [vt_wires]. rewrite upd_length. congruence.
      + intros j Hj. rewrite W3. destruct (Nat.eqb_spec j i) as [->|Hne]; [congruence|].
        rewrite F2; rewrite W1; destruct (Nat.eqb_spec j i); try congruence; reflexivity.
    - (* other handles remain *)
      set (w' := mk_vwire (S rc) (vw_terms (wat t i)) (vw_value (wat t i))).
      eexists. split; [reflexivity|].
      assert (TM : forall j, vw_terms (wat (set_wires t (upd (vt_wires t) i w')) j) = vw_terms (wat t j)).
      { intros j. rewrite wat_upd by auto. destruct (Nat.eqb_spec j i) as [->|]; reflexivity. }
      assert (Z : forall j, vw_rc (wat (set_wires t (upd (vt_wires t) i w')) j) = 0%nat <-> vw_rc (wat t j) = 0%nat).
      { intros j. rewrite wat_upd by auto. destruct (Nat.eqb_spec j i) as [->|]; [cbn; lia|tauto]. }
      assert (LW : length (vt_wires (set_wires t (upd (vt_wires t) i w'))) = length (vt_wires t)) by apply upd_length.
      split; [|split; [|split; [|split]]].
      + destruct HI as [I1 I2 I3 I4 I5 I6 I7 I8 I9]. constructor; cbn [set_wires vt_free vt_a vt_b vt_c vt_d].
        * intros j. specialize (I1 j). cbn [cnt is_v] in I1.
          pose proof (cnt_terms_upd (vt_wires t) i w' j Hlt) as Q. unfold tms in Q. unfold w' in Q at 2. cbn [vw_terms] in Q.
          unfold wat in Q. rewrite wat_upd by auto.
          change (vt_wires (set_wires t (upd (vt_wires t) i w'))) with (upd (vt_wires t) i w').
          destruct (Nat.eqb_spec j i) as [->|Hne]; try change (vw_rc w') with (S rc).
          -- rewrite Nat.eqb_refl in I1. lia.
          -- destruct (Nat.eqb_spec i j); [congruence|]. lia.
        * intros j. rewrite I2, <- Z, LW. tauto.
        * exact I3.
        * intros j. rewrite Z, TM. intros Hj. destruct (I4 j Hj) as [A B]. split; [exact A|]. intros Hp.
          rewrite wat_upd by auto. destruct (Nat.eqb_spec j i) as [->|Hne]; [lia|auto].
        * intros j. rewrite TM. intros Hj. apply I5. pose proof (Z j). lia.
        * intros j k. unfold tms. rewrite TM. apply I6.
        * intros j. unfold tms. rewrite TM. apply I7.
        * intros j Hj. rewrite Z, LW. apply I8. exact Hj.
        * exact I9.
      + unfold phi, bufs, set_wires. cbn [vt_a vt_b vt_c vt_d vt_wires]. rewrite vsum_upd by auto.
        cbn [vw_value w']. unfold wat. ring.
      + pose proof (total_upd (vt_wires t) i w' Hlt) as Q. cbn [vw_rc w'] in Q. unfold total_rc, set_wires. cbn [vt_wires].
        unfold wat in Erc. lia.
      + unfold set_wires. cbn [vt_wires]. apply upd_length.
      + intros j Hj. rewrite wat_upd by auto. destruct (Nat.eqb_spec j i) as [->|]; [lia|reflexivity].
  Qed.

  Lemma vt_drop_ok t w H P den rk :
    Inv t (w :: H) P den rk -> gok w ->
    exists t', vt_drop t w = Some t' /\ Inv t' H P den rk /\ phi den t' = phi den t.
  Proof.
    intros HI Hok. destruct (vt_free_ok (S (total_rc t)) t w H P den rk HI Hok ltac:(lia)) as (t' & E & HI' & Pt & _).
    exists t'. unfold vt_drop. auto.
  Qed.

  (** [Clone for Wire] *)
  Lemma vt_inc_ok t H P den rk w :
    Inv t H P den rk -> In w H ->
    exists t', vt_inc t w = Some t' /\ Inv t' (w :: H) P den rk /\ phi den t' = phi den t /\
      vt_free t' = vt_free t /\ length (vt_wires t') = length (vt_wires t) /\
      (forall j, is_v j w = false -> wat t' j = wat t j).
  Proof.
    intros HI Hin.
    assert (Hgate : (forall i, is_v i w = false) ->
      exists t', Some t = Some t' /\ Inv t' (w :: H) P den rk /\ phi den t' = phi den t /\
        vt_free t' = vt_free t /\ length (vt_wires t') = length (vt_wires t) /\
        (forall j, is_v j w = false -> wat t' j = wat t j)).
    { intros Hw. exists t. split; [reflexivity|]. split; [|auto].
      apply (Inv_H _ H); [|exact HI]. intros i. cbn [cnt]. rewrite Hw. reflexivity. }
    destruct w as [g|g|g|g|i]; try (apply Hgate; reflexivity). clear Hgate. cbn [vt_inc].
    destruct HI as [I1 I2 I3 I4 I5 I6 I7 I8 I9].
    assert (Hrc : (0 < vw_rc (wat t i))%nat) by (rewrite I1; apply cnt_in in Hin; lia).
    assert (Hlt := wat_lt t i Hrc). rewrite (wat_err t i Hlt).
    set (w' := mk_vwire (S (vw_rc (wat t i))) (vw_terms (wat t i)) (vw_value (wat t i))).
    set (t' := set_wires t (upd (vt_wires t) i w')).
    assert (W' : forall j, wat t' j = if Nat.eqb j i then w' else wat t j) by (intros j; apply wat_upd; exact Hlt).
    assert (TM : forall j, vw_terms (wat t' j) = vw_terms (wat t j)).
    { intros j. rewrite W'. destruct (Nat.eqb_spec j i) as [->|]; reflexivity. }
    assert (VL : forall j, vw_value (wat t' j) = vw_value (wat t j)).
    { intros j. rewrite W'. destruct (Nat.eqb_spec j i) as [->|]; reflexivity. }
    assert (Z : forall j, vw_rc (wat t' j) = 0%nat <-> vw_rc (wat t j) = 0%nat).
    { intros j. rewrite W'. destruct (Nat.eqb_spec j i) as [->|]; [cbn; lia|tauto]. }
    assert (LW : length (vt_wires t') = length (vt_wires t)) by apply upd_length.
    exists t'. split; [reflexivity|]. split; [|split; [|split; [|split]]]; auto.
    - constructor; try assumption.
      + intros j. specialize (I1 j). cbn [cnt is_v].
        pose proof (cnt_terms_upd (vt_wires t) i w' j Hlt) as Q. unfold tms in Q. unfold w' in Q at 2. cbn [vw_terms] in Q.
        unfold wat in Q. rewrite W'. change (vt_wires t') with (upd (vt_wires t) i w').
        destruct (Nat.eqb_spec j i) as [->|Hne].
        * rewrite Nat.eqb_refl. change (vw_rc w') with (S (vw_rc (wat t i))). lia.
        * destruct (Nat.eqb_spec i j); [congruence|]. lia.
      + intros j. rewrite Z, LW. apply I2.
      + intros j. rewrite Z, TM, VL. apply I4.
      + intros j. rewrite TM. intros Hj. apply I5. pose proof (Z j). lia.
      + intros j k. unfold tms. rewrite TM. apply I6.
      + intros j. unfold tms. rewrite TM. apply I7.
      + intros j. rewrite Z, LW. apply I8.
    - unfold phi, bufs, t', set_wires. cbn [vt_a vt_b vt_c vt_d vt_wires]. rewrite vsum_upd by auto.
      change (vw_value w') with (vw_value (wat t i)). unfold wat. ring.
    - intros j Hj. cbn [is_v] in Hj. rewrite W', Nat.eqb_sym, Hj. reflexivity.
  Qed.

  Lemma tsum_ext den den' ts : (forall w, In w (map fst ts) -> D den w = D den' w) -> tsum den ts = tsum den' ts.
  Proof.
    intros H. unfold tsum. f_equal. apply map_ext_in. intros tc Hin. rewrite H; [reflexivity|].
    apply in_map. exact Hin.
  Qed.
  Lemma vsum_app den ws w : vsum den (ws ++ [w]) = vsum den ws + c_value (vw_value w) * den (length ws).
  Proof.
    unfold vsum. rewrite app_length. simpl length. rewrite Nat.add_1_r. cbn [fsum]. f_equal.
    - apply fsum_ext. intros i Hi. rewrite app_nth1 by exact Hi. reflexivity.
    - rewrite app_nth2, Nat.sub_diag by lia. reflexivity.
  Qed.
  Lemma all_terms_app ws w : all_terms (ws ++ [w]) = all_terms ws ++ tms w.
  Proof. unfold all_terms. rewrite flat_map_app. cbn [flat_map]. rewrite app_nil_r. reflexivity. Qed.

  Definition upd_fun {A : Type} (f : nat -> A) (i : nat) (a : A) : nat -> A := fun j => if Nat.eqb j i then a else f j.

  (** [VirtualTable::alloc]; the fresh wire denotes 0 until it is updated *)
  Lemma vt_alloc_ok t H P den rk :
    Inv t H P den rk ->
    exists t' i, vt_alloc t = Some (t', i) /\ Inv t' (IV i :: H) P (upd_fun den i 0) rk /\
      cnt i H = 0%nat /\ phi (upd_fun den i 0) t' = phi den t /\ wat t' i = mk_vwire 1 [] CZero.
  Proof.
    intros [I1 I2 I3 I4 I5 I6 I7 I8 I9]. unfold vt_alloc.
    destruct (rev (vt_free t)) as [|i rest] eqn:Er.
    - (* grow the table *)
      assert (Ef : vt_free t = []) by (rewrite <- (rev_involutive (vt_free t)), Er; reflexivity).
      set (i := length (vt_wires t)). set (nw := mk_vwire 1 [] CZero).
      set (t' := mk_vtable (vt_wires t ++ [nw]) [] (vt_a t) (vt_b t) (vt_c t) (vt_d t)).
      assert (Wi : wat t i = dead) by (unfold wat; apply nth_overflow; unfold i; lia).
      assert (W' : forall j, wat t' j = if Nat.eqb j i then nw else wat t j).
      { intros j. unfold wat, t'. cbn [vt_wires]. destruct (Nat.eqb_spec j i) as [->|Hne].
        - unfold i. rewrite app_nth2, Nat.sub_diag by lia. reflexivity.
        - destruct (Nat.lt_ge_cases j i).
          + apply app_nth1. exact H0.
          + rewrite (nth_overflow (vt_wires t)) by (unfold i in *; lia). apply nth_overflow. rewrite app_length. simpl. unfold i in *. lia. }
      assert (Ci : (cnt i H = 0 /\ cnt i (all_terms (vt_wires t)) = 0)%nat).
      { pose proof (I1 i) as Q. rewrite Wi in Q. cbn in Q. lia. }
      assert (L' : length (vt_wires t') = S i) by (unfold t', i; cbn [vt_wires]; rewrite app_length; simpl; lia).
      assert (Dn : forall j, tsum (upd_fun den i 0) (vw_terms (wat t j)) = tsum den (vw_terms (wat t j))).
      { intros j. apply tsum_ext. intros w Hw. destruct w as [g|g|g|g|k]; try reflexivity. cbn [D].
        unfold upd_fun. destruct (Nat.eqb_spec k i) as [->|]; [|reflexivity].
        apply (tms_in_all t j i) in Hw. lia. }
      exists t', i. split; [reflexivity|]. split; [|split; [lia|split]].
      + constructor.
        * intros j. rewrite W'. unfold t'. cbn [vt_wires cnt is_v]. rewrite all_terms_app. cbn [tms vw_terms nw map].
          rewrite app_nil_r. specialize (I1 j).
          destruct (Nat.eqb_spec j i) as [->|Hne]; cbn [vw_rc nw].
          -- rewrite Nat.eqb_refl. lia.
          -- destruct (Nat.eqb_spec i j); [congruence|]. exact I1.
        * intros j. rewrite W', L'. change (vt_free t') with (@nil nat). cbn [In]. split; [tauto|].
          intros (A & B & C). destruct (Nat.eqb_spec j i) as [->|Hne]; [discriminate|].
          assert (Q : In j (vt_free t)) by (apply I2; unfold i in *; repeat split; auto; lia).
          rewrite Ef in Q. exact Q.
        * constructor.
        * intros j. rewrite W'. destruct (Nat.eqb_spec j i) as [->|Hne]; [discriminate|apply I4].
        * intros j. rewrite W'. destruct (Nat.eqb_spec j i) as [->|Hne].
          -- intros _. unfold upd_fun. rewrite Nat.eqb_refl. unfold tsum, lsum. reflexivity.
          -- intros Hj. rewrite Dn, <- I5 by exact Hj. unfold upd_fun. destruct (Nat.eqb_spec j i); [congruence|reflexivity].
        * intros j k. rewrite W'. destruct (Nat.eqb_spec j i) as [->|Hne]; [intros []|apply I6].
        * intros j. rewrite W'. destruct (Nat.eqb_spec j i) as [->|Hne]; [constructor|apply I7].
        * intros j Hj. destruct (I8 j Hj) as [A B]. rewrite W', L'.
          destruct (Nat.eqb_spec j i) as [->|Hne]; [unfold i in A; lia|]. split; [unfold i; lia|exact B].
        * exact I9.
      + unfold phi. f_equal. unfold t'. cbn [vt_wires]. rewrite vsum_app. cbn [vw_value nw c_value].
        replace (vsum (upd_fun den i 0) (vt_wires t)) with (vsum den (vt_wires t)); [ring|].
        unfold vsum. apply fsum_ext. intros j Hj. unfold upd_fun.
        destruct (Nat.eqb_spec j i); [unfold i in *; lia|reflexivity].
      + rewrite W', Nat.eqb_refl. auto.
    - (* reuse a free entry *)
      assert (Ef : vt_free t = rev rest ++ [i]) by (rewrite <- (rev_involutive (vt_free t)), Er; reflexivity).
      assert (Hif : In i (vt_free t)) by (rewrite Ef, in_app_iff; right; left; reflexivity).
      destruct (proj1 (I2 i) Hif) as (Hlt & Hrc & HnP). destruct (I4 i Hrc) as [Ht Hv]. specialize (Hv HnP).
      rewrite (wat_err t i Hlt), Hrc, Ht, Hv. cbn [c_is_zero andb Nat.eqb].
      set (nw := mk_vwire 1 [] CZero).
      set (t' := mk_vtable (upd (vt_wires t) i nw) (rev rest) (vt_a t) (vt_b t) (vt_c t) (vt_d t)).
      assert (W' : forall j, wat t' j = if Nat.eqb j i then nw else wat t j) by (intros j; exact (wat_upd t i nw j Hlt)).
      assert (Ci : (cnt i H = 0 /\ cnt i (all_terms (vt_wires t)) = 0)%nat) by (pose proof (I1 i); lia).
      assert (L' : length (vt_wires t') = length (vt_wires t)) by apply upd_length.
      assert (Dn : forall j, tsum (upd_fun den i 0) (vw_terms (wat t j)) = tsum den (vw_terms (wat t j))).
      { intros j. apply tsum_ext. intros w Hw. destruct w as [g|g|g|g|k]; try reflexivity. cbn [D].
        unfold upd_fun. destruct (Nat.eqb_spec k i) as [->|]; [|reflexivity].
        apply (tms_in_all t j i) in Hw. lia. }
      assert (ND : NoDup (rev rest) /\ ~ In i (rev rest)).
      { rewrite Ef in I3. split.
        - apply NoDup_remove_1 in I3. rewrite app_nil_r in I3. exact I3.
        - apply NoDup_remove_2 in I3. rewrite app_nil_r in I3. exact I3. }
      exists t', i. split; [reflexivity|]. split; [|split; [lia|split]].
      + constructor.
        * intros j. rewrite W'. cbn [cnt is_v]. pose proof (cnt_terms_upd (vt_wires t) i nw j Hlt) as Q.
          change (nth i (vt_wires t) dead) with (wat t i) in Q. unfold tms in Q. rewrite Ht in Q. cbn [nw vw_terms map cnt] in Q.
          change (vt_wires t') with (upd (vt_wires t) i nw). specialize (I1 j).
          destruct (Nat.eqb_spec j i) as [->|Hne].
          -- rewrite Nat.eqb_refl. change (vw_rc nw) with 1%nat. lia.
          -- destruct (Nat.eqb_spec i j); [congruence|]. lia.
        * intros j. rewrite W', L'. change (vt_free t') with (rev rest).
          split.
          -- intros Hj. assert (Hne : j <> i) by (intros ->; tauto).
             destruct (Nat.eqb_spec j i); [congruence|]. apply I2. rewrite Ef, in_app_iff. left. exact Hj.
          -- intros (A & B & C). destruct (Nat.eqb_spec j i) as [->|Hne]; [discriminate|].
             assert (Q : In j (vt_free t)) by (apply I2; auto). rewrite Ef, in_app_iff in Q. cbn [In] in Q.
             destruct Q as [Q|[->|[]]]; [exact Q|congruence].
        * apply ND.
        * intros j. rewrite W'. destruct (Nat.eqb_spec j i) as [->|Hne]; [discriminate|apply I4].
        * intros j. rewrite W'. destruct (Nat.eqb_spec j i) as [->|Hne].
          -- intros _. unfold upd_fun. rewrite Nat.eqb_refl. reflexivity.
          -- intros Hj. rewrite Dn, <- I5 by exact Hj. unfold upd_fun. destruct (Nat.eqb_spec j i); [congruence|reflexivity].
        * intros j k. rewrite W'. destruct (Nat.eqb_spec j i) as [->|Hne]; [intros []|apply I6].
        * intros j. rewrite W'. destruct (Nat.eqb_spec j i) as [->|Hne]; [constructor|apply I7].
        * intros j Hj. destruct (I8 j Hj) as [A B]. rewrite W', L'.
          destruct (Nat.eqb_spec j i) as [->|Hne]; [tauto|]. auto.
        * exact I9.
      + unfold phi. f_equal. unfold t'. cbn [vt_wires]. rewrite vsum_upd by auto.
        change (nth i (vt_wires t) dead) with (wat t i). rewrite Hv. cbn [vw_value nw c_value].
        replace (vsum (upd_fun den i 0) (vt_wires t)) with (vsum den (vt_wires t)); [ring|].
        unfold vsum. apply fsum_ext. intros j Hj. unfold upd_fun.
        destruct (Nat.eqb_spec j i) as [->|]; [|reflexivity]. change (nth i (vt_wires t) dead) with (wat t i).
        rewrite Hv. cbn [c_value]. ring.
      + rewrite W', Nat.eqb_refl. auto.
  Qed.

  (** an upper bound of the ranks *)
  Definition rk_max (t : vtable F) (rk : nat -> nat) : nat := list_sum (map rk (seq 0 (length (vt_wires t)))).
  Lemma rk_max_ge t rk j : (j < length (vt_wires t))%nat -> (rk j <= rk_max t rk)%nat.
  Proof.
    intros H. unfold rk_max.
    assert (Hin : In j (seq 0 (length (vt_wires t)))) by (apply in_seq; lia).
    revert Hin. generalize (seq 0 (length (vt_wires t))). induction l as [|a l IH]; [intros []|].
    intros [->|Hin]; cbn [map]; rewrite list_sum_cons; [lia|]. specialize (IH Hin). lia.
  Qed.

  (** [Driver::add] of the evaluator *)
  Lemma sy_add_ok t H P den rk (lc : list (lcall F widx)) :
    Inv t H P den rk -> Forall (op_ok F widx (fun w => In w H /\ gok w)) lc ->
    exists t' i den' rk', sy_add t lc = Some (t', IV i) /\ Inv t' (IV i :: H) P den' rk' /\
      (forall w, In w H -> D den' w = D den w) /\ den' i = lin_spec (D den) lc /\
      phi den' t' = phi den t.
  Proof.
    intros HI Hlc. unfold sy_add.
    destruct (vt_alloc_ok t H P den rk HI) as (t1 & i & -> & HI1 & Ci & P1 & W1).
    set (den1 := upd_fun den i 0) in *.
    assert (DH : forall w, In w H -> D den1 w = D den w).
    { intros w Hw. destruct w as [g|g|g|g|k]; try reflexivity. cbn [D]. unfold den1, upd_fun.
      destruct (Nat.eqb_spec k i) as [->|]; [|reflexivity]. apply cnt_in in Hw. lia. }
    set (R := fun (l : tcol F) (val g : F) =>
      exists t2, tc_table l = Some t2 /\ c_value (tc_gain l) = g /\
        Inv t2 (map fst (tc_terms l) ++ IV i :: H) P den1 rk /\ incl (map fst (tc_terms l)) H /\
        Forall gok (map fst (tc_terms l)) /\
        tsum den (tc_terms l) = val /\ phi den1 t2 = phi den t /\
        wat t2 i = mk_vwire 1 [] CZero).
    destruct (lin_run_inv F widx (tcol F) tc_add_term tc_do_gain (D den) (fun w => In w H /\ gok w) R)
      with (ops := lc) (l := mk_tcol (Some t1) [] (@COne F)) (v := 0 : F) (g := 1 : F) as [g' HR]; auto.
    { intros l val g w c [Hw Hg] (t2 & E1 & E2 & HI2 & Inc & Gk & Ts & Ph & Wi).
      destruct (vt_inc_ok t2 _ _ _ _ w HI2) as (t3 & E3 & HI3 & Ph3 & _ & _ & Same).
      { apply in_or_app. right. right. exact Hw. }
      exists t3. unfold tc_add_term. cbn [tc_table tc_terms tc_gain]. rewrite E1.
      rewrite map_app. cbn [map fst].
      refine (conj E3 (conj E2 (conj _ (conj _ (conj _ (conj _ (conj _ _))))))).
      - apply (Inv_H _ (w :: map fst (tc_terms l) ++ IV i :: H)); [|exact HI3].
        intros j. cbn [cnt]. rewrite !cnt_app. cbn [cnt]. lia.
      - intros z Hz. apply in_app_iff in Hz. cbn [In] in Hz. destruct Hz as [Hz|[<-|[]]]; auto.
      - apply Forall_app. auto.
      - rewrite <- Ts, <- E2. unfold tsum. rewrite map_app. cbn [map fst snd].
        assert (Lapp : forall (l1 : list F) z, lsum (l1 ++ [z]) = lsum l1 + z).
        { induction l1 as [|y l1 IHl]; intros z; unfold lsum in *; cbn [app fold_right]; [ring|]. rewrite IHl. ring. }
        rewrite Lapp, c_mul_ok. ring.
      - congruence.
      - rewrite Same; [exact Wi|]. destruct w as [k|k|k|k|k]; try reflexivity. cbn [is_v].
        destruct (Nat.eqb_spec k i) as [->|]; [|reflexivity]. apply cnt_in in Hw. lia. }
    { intros l val g c (t2 & E1 & E2 & Q). exists t2. unfold tc_do_gain. cbn [tc_table tc_terms tc_gain].
      rewrite c_mul_ok, E2. auto. }
    { exists t1. cbn [tc_table tc_terms tc_gain map app].
      refine (conj eq_refl (conj eq_refl (conj HI1 (conj _ (conj _ (conj eq_refl (conj P1 W1))))))); [intros z []|constructor]. }
    set (r := lin_run tc_add_term tc_do_gain lc (mk_tcol (Some t1) [] COne)) in *.
    destruct HR as (t2 & E1 & _ & HI2 & Inc & Gk & Ts & Ph & Wi). rewrite E1.
    replace (0 + 1 * lin_spec (D den) lc) with (lin_spec (D den) lc) in Ts by ring.
    assert (Ci2 : cnt i (map fst (tc_terms r)) = 0%nat) by (eapply cnt_incl; eauto).
    assert (Ca : cnt i (all_terms (vt_wires t2)) = 0%nat).
    { pose proof (i_rc _ _ _ _ _ HI2 i) as Q. rewrite Wi, cnt_app in Q. cbn [cnt is_v vw_rc] in Q. rewrite Nat.eqb_refl in Q. lia. }
    assert (Hlt : (i < length (vt_wires t2))%nat) by (apply wat_lt; rewrite Wi; cbn; lia).
    unfold vt_update. rewrite (wat_err t2 i Hlt), Wi. cbn [vw_rc vw_value].
    set (nw := mk_vwire 1 (tc_terms r) CZero). set (t3 := set_wires t2 (upd (vt_wires t2) i nw)).
    set (den' := upd_fun den i (lin_spec (D den) lc)).
    set (rk' := upd_fun rk i (S (rk_max t2 rk))).
    assert (W3 : forall j, wat t3 j = if Nat.eqb j i then nw else wat t2 j) by (intros j; apply wat_upd; exact Hlt).
    assert (L3 : length (vt_wires t3) = length (vt_wires t2)) by apply upd_length.
    assert (RC : forall j, vw_rc (wat t3 j) = vw_rc (wat t2 j)).
    { intros j. rewrite W3. destruct (Nat.eqb_spec j i) as [->|]; [rewrite Wi|]; reflexivity. }
    assert (D3 : forall w, is_v i w = false -> D den' w = D den w /\ D den' w = D den1 w).
    { intros w Hw. destruct w as [k|k|k|k|k]; try (split; reflexivity). cbn [D is_v] in *. unfold den', den1, upd_fun.
      rewrite Hw. auto. }
    assert (NiH : forall w, In w H -> is_v i w = false).
    { intros w Hw. destruct w as [k|k|k|k|k]; try reflexivity. cbn [is_v].
      destruct (Nat.eqb_spec k i) as [->|]; [|reflexivity]. apply cnt_in in Hw. lia. }
    assert (NiT : forall j w, In w (tms (wat t2 j)) -> is_v i w = false).
    { intros j w Hw. destruct w as [k|k|k|k|k]; try reflexivity. cbn [is_v].
      destruct (Nat.eqb_spec k i) as [->|]; [|reflexivity]. apply tms_in_all in Hw. lia. }
    exists t3, i, den', rk'. split; [reflexivity|]. split; [|split; [|split]].
    - destruct HI2 as [I1 I2 I3 I4 I5 I6 I7 I8 I9]. constructor.
      + intros j. rewrite RC. specialize (I1 j). rewrite cnt_app in I1.
        pose proof (cnt_terms_upd (vt_wires t2) i nw j Hlt) as Q.
        change (nth i (vt_wires t2) dead) with (wat t2 i) in Q. rewrite Wi in Q. unfold tms in Q. cbn [vw_terms map cnt nw] in Q.
        change (vt_wires t3) with (upd (vt_wires t2) i nw). lia.
      + intros j. rewrite RC, L3. apply I2.
      + exact I3.
      + intros j. rewrite RC, W3. destruct (Nat.eqb_spec j i) as [->|Hne]; [rewrite Wi; discriminate|apply I4].
      + intros j. rewrite RC, W3. destruct (Nat.eqb_spec j i) as [->|Hne]; intros Hj.
        * cbn [vw_terms nw]. unfold den' at 1, upd_fun. rewrite Nat.eqb_refl, <- Ts. apply tsum_ext.
          intros w Hw. symmetry. apply D3. apply NiH, Inc, Hw.
        * replace (den' j) with (den1 j) by (unfold den', den1, upd_fun; destruct (Nat.eqb_spec j i); [congruence|reflexivity]).
          rewrite (I5 j Hj). apply tsum_ext. intros w Hw. symmetry. apply D3. apply (NiT j). exact Hw.
      + intros j k. rewrite W3. unfold rk', upd_fun. destruct (Nat.eqb_spec j i) as [->|Hne]; intros Hk.
        * assert (Hki : is_v i (IV k) = false) by (apply NiH, Inc, Hk). cbn [is_v] in Hki. rewrite Hki.
          assert (Hkl : (k < length (vt_wires t2))%nat).
          { apply wat_lt. rewrite I1, cnt_app. assert (In (IV k) (map fst (tc_terms r))) by exact Hk. apply cnt_in in H0. lia. }
          pose proof (rk_max_ge t2 rk k Hkl). lia.
        * assert (Hki := NiT j (IV k) Hk). cbn [is_v] in Hki. rewrite Hki. apply I6. exact Hk.
      + intros j. rewrite W3. destruct (Nat.eqb_spec j i) as [->|Hne]; [exact Gk|apply I7].
      + intros j Hj. rewrite RC, L3. apply I8. exact Hj.
      + exact I9.
    - intros w Hw. apply D3, NiH, Hw.
    - unfold den', upd_fun. rewrite Nat.eqb_refl. reflexivity.
    - rewrite <- Ph. unfold phi. f_equal. change (vt_wires t3) with (upd (vt_wires t2) i nw).
      rewrite vsum_upd by auto. change (nth i (vt_wires t2) dead) with (wat t2 i). rewrite Wi. cbn [vw_value nw c_value].
      replace (vsum den' (vt_wires t2)) with (vsum den1 (vt_wires t2)); [ring|].
      unfold vsum. apply fsum_ext. intros j Hj. unfold den1, den', upd_fun.
      destruct (Nat.eqb_spec j i) as [->|]; [|reflexivity]. change (nth i (vt_wires t2) dead) with (wat t2 i).
      rewrite Wi. cbn [vw_value c_value]. ring.
  Qed.

  (** [Driver::enforce_zero] of the evaluator *)
  Lemma sy_enforce_ok t H P den rk y (lc : list (lcall F widx)) :
    Inv t H P den rk -> Forall (op_ok F widx (fun w => In w H /\ gok w)) lc ->
    exists t', sy_enforce t y lc = Some t' /\ Inv t' H P den rk /\
      phi den t' = phi den t + y * lin_spec (D den) lc.
  Proof.
    intros HI Hlc. unfold sy_enforce.
    set (R := fun (l : tenf F) (val g : F) =>
      exists t2, te_table l = Some t2 /\ c_value (te_y l) = g /\ Inv t2 H P den rk /\ phi den t2 = phi den t + val).
    destruct (lin_run_inv F widx (tenf F) te_add_term te_do_gain (D den) (fun w => In w H /\ gok w) R)
      with (ops := lc) (l := mk_tenf (Some t) (CArb y)) (v := 0 : F) (g := y) as [g' HR]; auto.
    { intros l val g w c [Hw Hg] (t2 & E1 & E2 & HI2 & Ph).
      destruct (vt_add_ok t2 H P den rk w (c_mul c (te_y l)) HI2 Hw Hg) as (t3 & E3 & HI3 & Ph3 & _).
      exists t3. unfold te_add_term. cbn [te_table te_y]. rewrite E1. refine (conj E3 (conj E2 (conj HI3 _))).
      rewrite Ph3, Ph, c_mul_ok, E2. ring. }
    { intros l val g c (t2 & E1 & E2 & Q). exists t2. unfold te_do_gain. cbn [te_table te_y].
      rewrite c_mul_ok, E2. auto. }
    { exists t. cbn [te_table te_y c_value]. refine (conj eq_refl (conj eq_refl (conj HI _))). ring. }
    destruct HR as (t2 & E1 & _ & HI2 & Ph). exists t2. split; [exact E1|]. split; [exact HI2|]. rewrite Ph. ring.
  Qed.

  (** no handle outstanding: every wire is free, and nothing is pending *)
  Lemma no_leak t den rk : Inv t [] [] den rk ->
    (forall i, vw_rc (wat t i) = 0%nat) /\ length (vt_free t) = length (vt_wires t) /\ phi den t = bufs t.
  Proof.
    intros [I1 I2 I3 I4 I5 I6 I7 I8 I9].
    assert (Z : forall k i, (rk_max t rk - rk i < k)%nat -> vw_rc (wat t i) = 0%nat).
    { induction k as [|k IH]; intros i Hk; [lia|].
      rewrite I1. cbn [cnt Nat.add]. destruct (cnt i (all_terms (vt_wires t))) eqn:Ec; [reflexivity|]. exfalso.
      assert (Hin : In (IV i) (all_terms (vt_wires t))) by (apply cnt_pos; lia).
      unfold all_terms in Hin. apply in_flat_map in Hin. destruct Hin as (w & Hw & Hi).
      apply In_nth with (d := dead) in Hw. destruct Hw as (j & Hj & <-).
      assert (Hr := I6 j i Hi). assert (Hm := rk_max_ge t rk j Hj).
      assert (R0 : vw_rc (wat t j) = 0%nat) by (apply IH; lia).
      destruct (I4 j R0) as [Ht _]. unfold tms in Hi. change (nth j (vt_wires t) dead) with (wat t j) in Hi.
      rewrite Ht in Hi. exact Hi. }
    assert (Z' : forall i, vw_rc (wat t i) = 0%nat) by (intros i; eapply Z; apply Nat.lt_succ_diag_r).
    split; [exact Z'|]. split.
    - assert (A : incl (vt_free t) (seq 0 (length (vt_wires t)))).
      { intros i Hi. apply I2 in Hi. apply in_seq. lia. }
      assert (B : incl (seq 0 (length (vt_wires t))) (vt_free t)).
      { intros i Hi. apply in_seq in Hi. apply I2. repeat split; auto; lia. }
      apply NoDup_incl_length in A; [|exact I3]. apply NoDup_incl_length in B; [|apply seq_NoDup].
      rewrite seq_length in *. lia.
    - unfold phi. replace (vsum den (vt_wires t)) with (0 : F); [ring|]. unfold vsum. symmetry.
      rewrite (fsum_ext F _ _ (fun _ => 0)); [apply fsum_zero; reflexivity|].
      intros i Hi. change (nth i (vt_wires t) dead) with (wat t i).
      destruct (I4 i (Z' i)) as [_ Hv]. rewrite Hv by auto. cbn [c_value]. ring.
  Qed.
End Table.
