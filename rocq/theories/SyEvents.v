(** Event sequences on the virtual wire table of the s(X, y) evaluator: adds,
    clones, drops and enforcements of handles in any legal order. *)
From Coq Require Import List Arith Lia Bool Ring Field Permutation.
From Verif Require Import FieldDef ArithModel ArithSpec ArithProofs FFTModel FFTProofs SparseModel
  CircModel SyModel CircSpec CircProofs SyProofs SyProofs2.
Import ListNotations.

(** a gate wire, or the h-th handle created so far *)
Inductive vref := RGate (k : kind) (g : nat) | RH (h : nat).
Inductive vev (F : Field) :=
| EAdd (lc : list (lcall F vref))          (* Driver::add: creates a handle *)
| EClone (h : nat)                         (* Clone for Wire: creates a handle *)
| EDrop (h : nat)                          (* Drop for Wire *)
| EEnforce (y : F) (lc : list (lcall F vref)).
Arguments EAdd {F}. Arguments EClone {F}. Arguments EDrop {F}. Arguments EEnforce {F}.

Section Events.
  Variable F : Field.
  Add Field FFev : (f_theory F).
  Open Scope f_scope.

  (** ** execution on the table: sy.rs operations, called one after the other *)
  Definition vhandle (env : list widx) (r : vref) : widx :=
    match r with
    | RGate KA g => IA g | RGate KB g => IB g | RGate KC g => IC g | RGate KD g => ID g
    | RH h => nth h env (IB 0)
    end.
  Fixpoint ev_exec (evs : list (vev F)) (env : list widx) (t : vtable F) : option (list widx * vtable F) :=
    match evs with
    | [] => Some (env, t)
    | EAdd lc :: r =>
        match sy_add t (map (lc_map (vhandle env)) lc) with
        | Some (t', w) => ev_exec r (env ++ [w]) t' | None => None end
    | EClone h :: r =>
        match vt_inc t (nth h env (IB 0)) with
        | Some t' => ev_exec r (env ++ [nth h env (IB 0)]) t' | None => None end
    | EDrop h :: r =>
        match vt_drop t (nth h env (IB 0)) with Some t' => ev_exec r env t' | None => None end
    | EEnforce y lc :: r =>
        match sy_enforce t y (map (lc_map (vhandle env)) lc) with
        | Some t' => ev_exec r env t' | None => None end
    end.
  Definition vt_empty (G : nat) : vtable F :=
    mk_vtable [] [] (repeat 0 G) (repeat 0 G) (repeat 0 G) (repeat 0 G).

  (** ** legality (what Rust's ownership rules guarantee): only live handles are
      used; [None] if illegal, else the liveness flags at the end *)
  Definition r_ok (G : nat) (live : list bool) (r : vref) : bool :=
    match r with RGate _ g => g <? G | RH h => nth h live false end.
  Definition l_ok (G : nat) (live : list bool) (lc : list (lcall F vref)) : bool :=
    forallb (fun op => match op with
                       | LTerm w _ | LAdd w | LSub w => r_ok G live w
                       | LGain _ => true
                       | LExtend ts => forallb (fun t => r_ok G live (fst t)) ts
                       end) lc.
  Fixpoint ev_legal (G : nat) (evs : list (vev F)) (live : list bool) : option (list bool) :=
    match evs with
    | [] => Some live
    | EAdd lc :: r => if l_ok G live lc then ev_legal G r (live ++ [true]) else None
    | EClone h :: r => if nth h live false then ev_legal G r (live ++ [true]) else None
    | EDrop h :: r => if nth h live false then ev_legal G r (unset live h) else None
    | EEnforce _ lc :: r => if l_ok G live lc then ev_legal G r live else None
    end.

  (** ** meaning: linear forms in the gate wires, no table; [v] assigns values to
      gate wires *)
  Section Val.
    Variable v : kind -> nat -> F.
    Definition vval (vals : list F) (r : vref) : F :=
      match r with RGate k g => v k g | RH h => nth h vals 0 end.
    Fixpoint ev_vals (evs : list (vev F)) (vals : list F) : list F :=
      match evs with
      | [] => vals
      | EAdd lc :: r => ev_vals r (vals ++ [lin_spec (vval vals) lc])
      | EClone h :: r => ev_vals r (vals ++ [nth h vals 0])
      | EDrop _ :: r => ev_vals r vals
      | EEnforce _ _ :: r => ev_vals r vals
      end.
    (** sum of y * (enforced linear form) *)
    Fixpoint ev_sum (evs : list (vev F)) (vals : list F) : F :=
      match evs with
      | [] => 0
      | EAdd lc :: r => ev_sum r (vals ++ [lin_spec (vval vals) lc])
      | EClone h :: r => ev_sum r (vals ++ [nth h vals 0])
      | EDrop _ :: r => ev_sum r vals
      | EEnforce y lc :: r => y * lin_spec (vval vals) lc + ev_sum r vals
      end.
  End Val.
  (** the valuation that is 1 on one wire and 0 on the others: reads off one
      coefficient of a linear form *)
  Definition wire_only (k : kind) (g : nat) : kind -> nat -> F :=
    fun k' g' => match k, k' with
                 | KA, KA | KB, KB | KC, KC | KD, KD => if Nat.eqb g g' then 1 else 0
                 | _, _ => 0 end.
  Definition not_drop (e : vev F) : bool := match e with EDrop _ => false | _ => true end.
  Lemma ev_sum_drops v : forall evs vals, ev_sum v evs vals = ev_sum v (filter not_drop evs) vals.
  Proof. induction evs as [|[lc|h|h|y lc] evs IH]; intros vals; cbn [ev_sum filter not_drop]; auto. now rewrite IH. Qed.

  (** ** proof *)
  (** the live handles *)
  Fixpoint lives (env : list widx) (live : list bool) : list widx :=
    match env, live with
    | w :: e, b :: l => if b then w :: lives e l else lives e l
    | _, _ => []
    end.
  Lemma lives_app e l w : length e = length l -> lives (e ++ [w]) (l ++ [true]) = lives e l ++ [w].
  Proof.
    revert l. induction e as [|x e IH]; intros [|b l] H; try discriminate; [reflexivity|].
    cbn [app lives]. injection H as H. rewrite IH by auto. destruct b; reflexivity.
  Qed.
  Lemma lives_in e : forall l h d, length e = length l -> nth h l false = true -> In (nth h e d) (lives e l).
  Proof.
    induction e as [|x e IH]; intros [|b l] h d H Hb; try discriminate; [destruct h; discriminate|].
    injection H as H. destruct h; cbn [nth lives] in *; [subst b; now left|].
    destruct b; [right|]; auto.
  Qed.
  Lemma lives_unset e : forall l h d i, length e = length l -> nth h l false = true ->
    (cnt i (nth h e d :: lives e (unset l h)) = cnt i (lives e l))%nat.
  Proof.
    induction e as [|x e IH]; intros [|b l] h d i H Hb; try discriminate; [destruct h; discriminate|].
    injection H as H. destruct h; cbn [nth lives unset] in *; [subst b; reflexivity|].
    specialize (IH l h d i H Hb). cbn [cnt] in IH. destruct b; cbn [cnt lives]; rewrite <- IH; lia.
  Qed.
  Lemma unset_length l : forall h, length (unset l h) = length l.
  Proof. induction l; intros [|h]; cbn; auto. Qed.
  Lemma nth_unset l : forall h k, nth k (unset l h) false = true -> nth k l false = true.
  Proof. induction l as [|b l IH]; intros [|h] [|k]; cbn; auto; try discriminate. apply IH. Qed.

  Section Run.
    Variables (G : nat) (v : kind -> nat -> F).
    Definition erelv (den : nat -> F) (env : list widx) (live : list bool) (vals : list F) : Prop :=
      length env = length live /\ length vals = length live /\
      forall h, nth h live false = true -> gok G (nth h env (IB 0)) /\ D F v den (nth h env (IB 0)) = nth h vals 0.

    Lemma ref_rel den env live vals r : erelv den env live vals -> r_ok G live r = true ->
      gok G (vhandle env r) /\ D F v den (vhandle env r) = vval v vals r.
    Proof.
      intros (_ & _ & H) Hr. destruct r as [[] g|h]; cbn in *; try (split; [now apply Nat.ltb_lt|reflexivity]).
      now apply H.
    Qed.

    Definition gws : list widx := flat_map (fun g => [IA g; IB g; IC g; ID g]) (seq 0 G).
    Lemma gws_cnt i : cnt i gws = 0%nat.
    Proof. unfold gws. induction (seq 0 G); [reflexivity|]. cbn [flat_map app cnt is_v]. exact IHl. Qed.
    Lemma gws_in k g : (g < G)%nat -> In (vhandle [] (RGate k g)) gws.
    Proof.
      intros H. unfold gws. apply in_flat_map. exists g. split; [apply in_seq; lia|].
      destruct k; cbn; auto.
    Qed.
    Lemma ref_in env live r : length env = length live -> r_ok G live r = true -> In (vhandle env r) (gws ++ lives env live).
    Proof.
      intros Hl Hr. apply in_app_iff. destruct r as [k g|h]; cbn [r_ok] in Hr.
      - left. apply Nat.ltb_lt in Hr. exact (gws_in k g Hr).
      - right. now apply lives_in.
    Qed.
    Lemma lc_rel den env live vals lc : erelv den env live vals -> l_ok G live lc = true ->
      Forall (op_ok F widx (fun w => In w (gws ++ lives env live) /\ gok G w)) (map (lc_map (vhandle env)) lc) /\
      lin_spec (D F v den) (map (lc_map (vhandle env)) lc) = lin_spec (vval v vals) lc.
    Proof.
      intros He Hl. unfold l_ok in Hl. rewrite forallb_forall in Hl.
      assert (Hr : forall r, r_ok G live r = true -> In (vhandle env r) (gws ++ lives env live) /\ gok G (vhandle env r)).
      { intros r H. split; [apply ref_in; auto; apply He|]. eapply ref_rel; eauto. }
      split.
      - apply Forall_forall. intros op Hop. apply in_map_iff in Hop. destruct Hop as (op' & <- & Hin).
        specialize (Hl op' Hin). destruct op' as [w c|c|w|w|ts]; cbn [lc_map op_ok]; auto.
        apply Forall_forall. intros t Ht. apply in_map_iff in Ht. destruct Ht as (t' & <- & Ht'). cbn [fst].
        apply Hr. rewrite forallb_forall in Hl. now apply Hl.
      - rewrite lin_spec_map. unfold lin_spec. apply fsum_ext. intros i Hi. f_equal.
        destruct (nth_error lc i) as [op|] eqn:E; [|reflexivity]. apply nth_error_In in E. specialize (Hl op E).
        assert (Hv : forall r, r_ok G live r = true -> D F v den (vhandle env r) = vval v vals r)
          by (intros r H; eapply ref_rel; eauto).
        destruct op as [w c|c|w|w|ts]; cbn [call_sum]; rewrite ?Hv by auto; auto.
        f_equal. apply map_ext_in. intros t Ht. rewrite Hv; auto. rewrite forallb_forall in Hl. now apply Hl.
    Qed.
    Lemma ev_exec_ok : forall evs env t live live' vals den rk,
      ev_legal G evs live = Some live' -> erelv den env live vals ->
      Inv F G v t (gws ++ lives env live) [] den rk ->
      exists env' t' den' rk', ev_exec evs env t = Some (env', t') /\
        erelv den' env' live' (ev_vals v evs vals) /\ Inv F G v t' (gws ++ lives env' live') [] den' rk' /\
        phi F G v den' t' = phi F G v den t + ev_sum v evs vals.
    Proof.
      induction evs as [|[lc|h|h|y lc] evs IH]; intros env t live live' vals den rk Hl He HI;
        cbn [ev_legal ev_exec ev_vals ev_sum] in *.
      - injection Hl as <-. exists env, t, den, rk. refine (conj eq_refl (conj He (conj HI _))). ring.
      - destruct (l_ok G live lc) eqn:El; [|discriminate].
        destruct (lc_rel den env live vals lc He El) as [Hop Hv].
        destruct (sy_add_ok F G v t _ [] den rk _ HI Hop) as (t1 & i & den1 & rk1 & E & HI1 & Hd & Hi & Hp).
        rewrite E. destruct He as (L1 & L2 & He).
        destruct (IH (env ++ [IV i]) t1 (live ++ [true]) live' (vals ++ [lin_spec (vval v vals) lc]) den1 rk1)
          as (env' & t' & den' & rk' & E' & He' & HI' & Hp'); auto.
        + unfold erelv. rewrite !app_length. cbn [length]. repeat split; try lia.
          * destruct (Nat.lt_ge_cases h (length live)) as [Hh|Hh].
            -- rewrite app_nth1 in H |- * by lia. now apply He.
            -- destruct (h - length live)%nat eqn:Eh.
               ++ rewrite app_nth2 by lia. replace (h - length env)%nat with 0%nat by lia. exact I.
               ++ rewrite app_nth2 in H by lia. rewrite Eh in H. destruct n; discriminate H.
          * destruct (Nat.lt_ge_cases h (length live)) as [Hh|Hh].
            -- rewrite app_nth1 in H |- * by lia. rewrite app_nth1 by lia. rewrite Hd; [now apply He|].
               apply in_app_iff. right. now apply lives_in.
            -- destruct (h - length live)%nat eqn:Eh.
               ++ rewrite !app_nth2 by lia. replace (h - length env)%nat with 0%nat by lia.
                  replace (h - length vals)%nat with 0%nat by lia. cbn [nth D]. now rewrite Hi, Hv.
               ++ rewrite app_nth2 in H by lia. rewrite Eh in H. destruct n; discriminate H.
        + eapply Inv_H; [|exact HI1]. intros j. rewrite lives_app by auto. rewrite app_assoc.
          cbn [cnt]. rewrite !cnt_app. cbn [cnt]. lia.
        + exists env', t', den', rk'. refine (conj E' (conj He' (conj HI' _))). rewrite Hp', Hp. ring.
      - destruct (nth h live false) eqn:El; [|discriminate].
        assert (He0 := He). destruct He as (L1 & L2 & He).
        destruct (vt_inc_ok F G v t _ [] den rk (nth h env (IB 0)) HI) as (t1 & E & HI1 & Hp & _).
        { apply in_app_iff. right. now apply lives_in. }
        rewrite E.
        destruct (IH (env ++ [nth h env (IB 0)]) t1 (live ++ [true]) live' (vals ++ [nth h vals 0]) den rk)
          as (env' & t' & den' & rk' & E' & He' & HI' & Hp'); auto.
        + unfold erelv. rewrite !app_length. cbn [length].
          split; [lia|]. split; [lia|]. intros k Hk.
          destruct (Nat.lt_ge_cases k (length live)) as [Hh|Hh].
          * rewrite app_nth1 in Hk by lia. rewrite !app_nth1 by lia. now apply He.
          * destruct (k - length live)%nat eqn:Eh.
            -- rewrite !app_nth2 by lia. replace (k - length env)%nat with 0%nat by lia.
               replace (k - length vals)%nat with 0%nat by lia. cbn [nth]. now apply He.
            -- rewrite app_nth2 in Hk by lia. rewrite Eh in Hk. destruct n; discriminate Hk.
        + eapply Inv_H; [|exact HI1]. intros j. rewrite lives_app by auto. rewrite app_assoc.
          cbn [cnt]. rewrite !cnt_app. cbn [cnt]. lia.
        + exists env', t', den', rk'. refine (conj E' (conj He' (conj HI' _))). rewrite Hp', Hp. ring.
      - destruct (nth h live false) eqn:El; [|discriminate].
        assert (He0 := He). destruct He as (L1 & L2 & He).
        destruct (vt_drop_ok F G v t (nth h env (IB 0)) (gws ++ lives env (unset live h)) [] den rk) as (t1 & E & HI1 & Hp).
        { eapply Inv_H; [|exact HI]. intros j. rewrite cnt_app, <- (lives_unset env live h (IB 0) j) by auto.
          cbn [cnt]. rewrite cnt_app. lia. }
        { now apply He. }
        rewrite E.
        destruct (IH env t1 (unset live h) live' vals den rk) as (env' & t' & den' & rk' & E' & He' & HI' & Hp'); auto.
        + unfold erelv. rewrite unset_length. split; [auto|]. split; [auto|]. intros k Hk. apply He.
          now apply nth_unset in Hk.
        + exists env', t', den', rk'. refine (conj E' (conj He' (conj HI' _))). rewrite Hp', Hp. ring.
      - destruct (l_ok G live lc) eqn:El; [|discriminate].
        destruct (lc_rel den env live vals lc He El) as [Hop Hv].
        destruct (sy_enforce_ok F G v t _ [] den rk y _ HI Hop) as (t1 & E & HI1 & Hp).
        rewrite E. destruct (IH env t1 live live' vals den rk) as (env' & t' & den' & rk' & E' & He' & HI' & Hp'); auto.
        exists env', t', den', rk'. refine (conj E' (conj He' (conj HI' _))). rewrite Hp', Hp, Hv. ring.
    Qed.
    (** a complete run from the empty table *)
    Lemma ev_run_ok evs live : ev_legal G evs [] = Some live ->
      exists env t den rk, ev_exec evs [] (vt_empty G) = Some (env, t) /\ length env = length live /\
        Inv F G v t (lives env live) [] den rk /\ phi F G v den t = ev_sum v evs [].
    Proof.
      intros Hl.
      destruct (ev_exec_ok evs [] (vt_empty G) [] live [] (fun _ => 0) (fun _ => 0%nat) Hl)
        as (env & t & den & rk & E & He & HI & Ph).
      { unfold erelv. split; [reflexivity|]. split; [reflexivity|]. intros [|h]; discriminate. }
      { apply Inv_H with (H := []); [|apply Inv_init]. intros i. cbn [lives]. now rewrite app_nil_r, gws_cnt. }
      exists env, t, den, rk. refine (conj E (conj (proj1 He) (conj _ _))).
      - apply Inv_H with (H := gws ++ lives env live); [|exact HI]. intros i. rewrite cnt_app, gws_cnt. reflexivity.
      - rewrite Ph. unfold phi, bufs, vt_empty. cbn [vt_a vt_b vt_c vt_d vt_wires]. rewrite !buf_zero.
        unfold vsum. cbn [length fsum]. ring.
    Qed.
  End Run.
  Definition side (t : vtable F) (k : kind) : list F :=
    match k with KA => vt_a t | KB => vt_b t | KC => vt_c t | KD => vt_d t end.
  Lemma bufs_only G k g (t : vtable F) : (g < G)%nat -> bufs F G (wire_only k g) t = nth g (side t k) 0.
  Proof.
    intros Hg.
    assert (Z : forall (l : list F) k', k <> k' -> buf F G (wire_only k g) l k' = 0).
    { intros l k' Hk. unfold buf. apply fsum_zero. intros i _. unfold wire_only. destruct k, k'; try congruence; ring. }
    assert (O : forall (l : list F), buf F G (wire_only k g) l k = nth g l 0).
    { intros l. unfold buf. rewrite (fsum_single F G g); auto.
      - unfold wire_only. destruct k; rewrite Nat.eqb_refl; ring.
      - intros i Hi Hn. unfold wire_only. destruct k; destruct (Nat.eqb_spec g i); try congruence; ring. }
    unfold bufs. destruct k; cbn [side];
      rewrite O; rewrite !Z by discriminate; ring.
  Qed.
End Events.
