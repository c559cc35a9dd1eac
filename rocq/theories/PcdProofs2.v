From Coq Require Import List Arith Bool Lia Ring Field.
From Verif Require Import FieldDef ModDef ArithModel ArithSpec SparseModel SparseSpec SparseProofs SparseProofs2 TModel TProofs ClaimModel GadgetModel GadgetSpec GadgetProofs
  PrimModel FoldModel FoldSpec FoldProofs FoldProofs2 FoldProofs3 PcdModel PcdSpec PcdProofs.
Import ListNotations.
Local Open Scope nat_scope.

Lemma index_internal id : circuit_index id = Some (internal_index id).
Proof. destruct id; reflexivity. Qed.
Lemma internal_lt id : internal_index id < 13.
Proof. destruct id; cbn; lia. Qed.

Lemma build_map {R A R' A' K : Type} (fa fb fr : R -> R') (g : A -> A') (vs : list (pview R A K)) :
  build_claims (source_of (map (pview_map fa fb fr g) vs)) = map (claim_map fa fb fr g) (build_claims (source_of vs)).
Proof.
  rewrite !build_of. cbn [flat_map bond_claims map fst]. rewrite !app_nil_r, !map_app, !map_map.
  cbn [map claim_map pview_map pv_rx pv_app bonded parts flat_map]. rewrite !app_nil_r, !map_app, !map_map. reflexivity.
Qed.

Lemma build_len {R A K : Type} (vs : list (pview R A K)) : length (build_claims (source_of vs)) = 7 * length vs + 8.
Proof.
  rewrite build_of, app_length. unfold bond_claims. rewrite map_length, map_length. cbn [length flat_map].
  rewrite !app_length, !map_length. cbn [length]. lia.
Qed.

Lemma forall2_len {A B : Type} (P : A -> B -> Prop) l l' : Forall2 P l l' -> length l = length l'.
Proof. induction 1; cbn; congruence. Qed.

(** every polynomial mentioned by a claim *)
Definition claim_ok {R A : Type} (P : R -> Prop) (Q : A -> Prop) (c : claim R A) : Prop :=
  match c with
  | CRaw a b => P a /\ P b
  | CApp id rx => Q id /\ P rx
  | CInt _ rxs | CBond _ rxs => rxs <> [] /\ Forall P rxs
  end.
Lemma build_all {R A K : Type} (P : R -> Prop) (Q : A -> Prop) (vs : list (pview R A K)) : vs <> [] ->
  (forall v, In v vs -> (forall c, P (pv_rx v c)) /\ Q (pv_app v)) -> Forall (claim_ok P Q) (build_claims (source_of vs)).
Proof.
  intros Hne H. rewrite build_of. apply Forall_app. split.
  - cbn [flat_map]. rewrite !Forall_app.
    assert (G : forall f : pview R A K -> claim R A, (forall v, In v vs -> claim_ok P Q (f v)) -> Forall (claim_ok P Q) (map f vs)).
    { intros f Hf. apply Forall_forall. intros c Hc. apply in_map_iff in Hc. destruct Hc as (v & <- & Hv). apply Hf. exact Hv. }
    do 7 (split; [apply G; intros v Hv; destruct (H v Hv) as (HP & HQ); cbn [claim_ok map parts];
      split; [auto; discriminate|auto; repeat constructor; auto]|]). constructor.
  - unfold bond_claims. apply Forall_forall. intros c Hc. rewrite map_map in Hc. cbn [fst] in Hc. apply in_map_iff in Hc. destruct Hc as (id & <- & Hid).
    cbn [claim_ok].
    assert (B : bonded id <> []) by (cbn [In] in Hid; decompose [or] Hid; subst; try contradiction; discriminate). split.
    + destruct (bonded id) as [|i l]; [congruence|]. destruct vs as [|v vs]; [congruence|]. cbn. discriminate.
    + apply Forall_forall. intros p Hp. apply in_flat_map in Hp. destruct Hp as (i & _ & Hp). rewrite map_map in Hp. cbn [pv_rx] in Hp.
      apply in_map_iff in Hp. destruct Hp as (v & <- & Hv). apply H. exact Hv.
Qed.

Section P.
  Variable F : Field.
  Add Field FFpc : (f_theory F).
  Open Scope f_scope.
  Local Notation poly := (list (nat * list F)).
  Variable n : nat.
  Local Notation NC := (4 * n)%nat.
  Local Notation wfp := (wf 0 (4 * n)).

  Lemma sum_polys_ok (rxs : list poly) : rxs <> [] -> Forall wfp rxs ->
    exists r, sum_polynomials NC rxs = Some r /\ wfp r /\ forall k, coeff_at r k = lsum (map (fun p => coeff_at p k) rxs).
  Proof.
    intros Hne HF. destruct rxs as [|p0 ps]; [congruence|]. inversion HF as [|? ? W0 HF']; subst. clear HF Hne. cbn [sum_polynomials].
    assert (Q : forall (l : list poly) (acc : poly), wfp acc -> Forall wfp l ->
      exists r, fold_left (fun acc rx => match acc with None => None | Some s => p_add NC s rx end) l (Some acc) = Some r /\ wfp r /\
        forall k, coeff_at r k = coeff_at acc k + lsum (map (fun p => coeff_at p k) l)).
    { induction l as [|p l IH]; intros acc W Hl; cbn [fold_left map].
      - exists acc. split; [reflexivity|]. split; [exact W|]. intros k. change (lsum []) with (0 : F). ring.
      - inversion Hl as [|? ? Wp Hl']; subst. destruct (add_ok F NC acc p W Wp) as (r & -> & Wr & C).
        destruct (IH r Wr Hl') as (r2 & E2 & W2 & C2). exists r2. split; [exact E2|]. split; [exact W2|].
        intros k. rewrite C2, C. change (lsum (coeff_at p k :: map (fun p => coeff_at p k) l)) with (coeff_at p k + lsum (map (fun p => coeff_at p k) l)). ring. }
    destruct (Q ps p0 W0 HF') as (r & E & W & C). exists r. auto.
  Qed.
  Lemma hfold_1 (z : F) (f : nat -> F) : hfold 1 z f = f O.
  Proof. unfold hfold. cbn. ring. Qed.
  Lemma fold_bonding_ok (z : F) (rxs : list poly) : rxs <> [] -> Forall wfp rxs ->
    exists r, fold_bonding_polys NC z rxs = Some r /\ wfp r /\ forall k, coeff_at r k = hfold (length rxs) z (fun i => coeff_at (nth i rxs []) k).
  Proof.
    intros Hne HF. destruct rxs as [|p [|q ps]]; [congruence| |].
    - exists p. split; [reflexivity|]. split; [inversion HF; assumption|]. intros k. cbn [length]. rewrite hfold_1. reflexivity.
    - cbn [fold_bonding_polys]. destruct (fold_ok F NC z _ HF) as (r & E & W & C). exists r. auto.
  Qed.

  Section B.
    Variables (z : F) (cy : nat -> option poly) (sy : nat -> poly).
    Definition reg_ok (id : nat) : Prop := cy id = Some (sy id) /\ wfp (sy id).
    Hypothesis Hint : forall i, (i < 13)%nat -> reg_ok i.

    Lemma t_coeff_z (tz : poly) k : t_z n z = Some tz -> wfp tz /\ coeff_at tz k = t_coeff n z k.
    Proof. intros H. destruct (t_z_ok F n z) as (p & E & W & C). assert (p = tz) by congruence. subst p. split; [exact W|]. apply C. Qed.
    Lemma circuit_b_ok (r s : poly) : wfp r -> wfp s ->
      exists b, circuit_claim_b n NC z r s = Some b /\ wfp b /\ forall k, coeff_at b k = coeff_at r k * z ^ k + coeff_at s k + t_coeff n z k.
    Proof.
      intros Wr Ws. destruct (t_z_ok F n z) as (tz & Et & Wt & Ct).
      destruct (dilate_ok F NC r z Wr) as [Wd Cd].
      destruct (add_ok F NC _ _ Wd Ws) as (b1 & E1 & W1 & C1).
      destruct (add_ok F NC _ _ W1 Wt) as (b2 & E2 & W2 & C2).
      exists b2. unfold circuit_claim_b. rewrite E1, Et. split; [exact E2|]. split; [exact W2|]. intros k.
      rewrite C2, C1, Cd, Ct. reflexivity.
    Qed.
    Lemma b_claim_ok (c : claim poly nat) : claim_ok wfp reg_ok c ->
      exists a b, b_claim n NC z cy c = Some (a, b) /\ wfp a /\ wfp b /\
        (forall k, coeff_at a k = a_coeff z c k) /\ (forall k, coeff_at b k = b_coeff n z sy c k).
    Proof.
      destruct c as [a b|id r|id rs|id rs]; cbn [claim_ok b_claim].
      - intros (Wa & Wb). exists a, b. cbn [a_coeff b_coeff]. auto.
      - intros ((Ec & Ws) & Wr). unfold b_circuit. rewrite Ec. destruct (circuit_b_ok r (sy id) Wr Ws) as (b & -> & Wb & Cb).
        exists r, b. cbn [option_map a_coeff b_coeff]. auto.
      - intros (Hne & HF). rewrite index_internal. destruct (sum_polys_ok rs Hne HF) as (a & -> & Wa & Ca).
        destruct (Hint _ (internal_lt id)) as (Ec & Ws). unfold b_circuit. rewrite Ec. destruct (circuit_b_ok a _ Wa Ws) as (b & -> & Wb & Cb).
        exists a, b. cbn [option_map a_coeff b_coeff]. do 3 (split; [auto|]). split; [exact Ca|]. intros k. rewrite Cb, Ca. reflexivity.
      - intros (Hne & HF). rewrite index_internal. destruct (fold_bonding_ok z rs Hne HF) as (a & -> & Wa & Ca).
        destruct (Hint _ (internal_lt id)) as (Ec & Ws). unfold b_bond. rewrite Ec. exists a, (sy (internal_index id)). cbn [option_map a_coeff b_coeff bonding_claim_b]. auto.
    Qed.
    Lemma b_all_ok (cs : list (claim poly nat)) : Forall (claim_ok wfp reg_ok) cs ->
      exists l, opt_all (b_claim n NC z cy) cs = Some l /\
        Forall2 (fun c ab => wfp (fst ab) /\ wfp (snd ab) /\ (forall k, coeff_at (fst ab) k = a_coeff z c k) /\ (forall k, coeff_at (snd ab) k = b_coeff n z sy c k)) cs l.
    Proof.
      induction 1 as [|c cs Hc Hcs (l & E & H2)]; cbn [opt_all]; [exists []; auto|].
      destruct (b_claim_ok c Hc) as (a & b & -> & Wa & Wb & Ca & Cb). rewrite E. cbn [option_map]. exists ((a, b) :: l). split; [reflexivity|].
      constructor; auto.
    Qed.

    (** tracked builder *)
    Section T.
      Variable K : Type.
      Variable src : K -> poly.
      Local Notation ap kp := (snd kp = src (fst kp) /\ wfp (snd kp)).
      Lemma t_fold_coeff (ts : list (tracked F K)) s : Forall (tracks F NC K src) ts ->
        exists r, g_fold (tracked_foldable NC) ts s = Some r /\ tracks F NC K src r /\
          forall k, coeff_at (fst r) k = hfold (length ts) s (fun i => coeff_at (nth i (map fst ts) []) k).
      Proof.
        intros H. destruct (track_fold F NC K src ts s H) as (r & E & Tr). exists r. split; [exact E|]. split; [exact Tr|].
        assert (W : Forall wfp (map fst ts)) by (clear - H; induction H as [|t ts Ht _ IH]; cbn [map]; constructor; [apply Ht|exact IH]).
        destruct (fold_poly_ok F NC (map fst ts) s W) as (p & Ep & Wp & Cp).
        assert (X : fst r = p).
        { revert E Ep. clear. unfold g_fold. cbn [fd_default fd_scale fd_add tracked_foldable poly_foldable].
          assert (G : forall ts (acc : option (tracked F K)) (acc' : option poly) r p, (match acc, acc' with Some t, Some q => fst t = q | None, None => True | _, _ => False end) ->
             fold_left (fun acc t => match acc with None => None | Some a => t_add NC (t_scale s a) t end) ts acc = Some r ->
             fold_left (fun acc t => match acc with None => None | Some a => p_add NC (p_scale s a) t end) (map fst ts) acc' = Some p -> fst r = p).
          { induction ts0 as [|[tp td] ts0 IH]; intros acc acc' r0 p0 Ha E E'; cbn [map fold_left] in E, E'.
            - subst acc acc'. exact Ha.
            - eapply IH; [|exact E|exact E']. destruct acc as [[q d]|], acc' as [q'|]; cbn in Ha; try contradiction; [|exact I]. subst q'.
              unfold t_add, t_scale. cbn [fst snd]. destruct (p_add NC (p_scale s q) tp); cbn [option_map]; auto. }
          intros E E'. eapply G; [|exact E|exact E']. reflexivity. }
        rewrite X. intros k. rewrite Cp, map_length. reflexivity.
      Qed.
      Lemma fb_claim_ok (c : claim (K * poly) nat) : claim_ok (fun kp => snd kp = src (fst kp) /\ wfp (snd kp)) reg_ok c ->
        exists t b, fb_claim n NC z cy c = Some (t, b) /\ tracks F NC K src t /\ wfp b /\
          (forall k, coeff_at (fst t) k = a_coeff z (claim_map snd snd snd (fun x => x) c) k) /\
          (forall k, coeff_at b k = b_coeff n z sy (claim_map snd snd snd (fun x => x) c) k).
      Proof.
        destruct c as [[ka pa] [kb pb]|id [kr r]|id rs|id rs]; cbn [claim_ok fb_claim fst snd].
        - intros ((-> & Wa) & (_ & Wb)). exists (t_single (src ka) ka), pb. split; [reflexivity|]. split; [apply track_single; exact Wa|].
          split; [exact Wb|]. split; reflexivity.
        - intros ((Ec & Ws) & (-> & Wr)). unfold b_circuit. rewrite Ec. destruct (circuit_b_ok (src kr) (sy id) Wr Ws) as (b & -> & Wb & Cb).
          exists (t_single (src kr) kr), b. cbn [option_map claim_map snd a_coeff b_coeff]. split; [reflexivity|]. split; [apply track_single; exact Wr|].
          split; [exact Wb|]. split; [reflexivity|exact Cb].
        - intros (Hne & HF). rewrite index_internal. rewrite Forall_forall in HF.
          destruct (track_sum F NC K src rs Hne HF) as (t & Et & Tt). rewrite Et.
          assert (HW : Forall wfp (map snd rs)) by (apply Forall_forall; intros p Hp; apply in_map_iff in Hp; destruct Hp as (kp & <- & Hk); apply HF; exact Hk).
          destruct (sum_polys_ok (map snd rs)) as (a & Ea & Wa & Ca); [destruct rs; [congruence|discriminate]|exact HW|].
          assert (fst t = a) as Hta by (unfold t_sum in Et; rewrite Ea in Et; cbn [option_map] in Et; injection Et as <-; reflexivity).
          destruct (Hint _ (internal_lt id)) as (Ec & Ws). unfold b_circuit. rewrite Ec, Hta. destruct (circuit_b_ok a _ Wa Ws) as (b & -> & Wb & Cb).
          exists t, b. cbn [option_map claim_map snd a_coeff b_coeff]. split; [reflexivity|]. split; [exact Tt|]. split; [exact Wb|].
          split; [rewrite Hta; exact Ca|]. intros k. rewrite Cb, Ca. reflexivity.
        - intros (Hne & HF). rewrite index_internal. unfold t_bond. rewrite Forall_forall in HF.
          destruct (t_fold_coeff (map (fun a => t_single (snd a) (fst a)) rs) z) as (t & -> & Tt & Ct).
          { apply Forall_forall. intros t Ht. apply in_map_iff in Ht. destruct Ht as ([k p] & <- & Hk). destruct (HF _ Hk) as (E & W). cbn [fst snd] in *. rewrite E in *. apply track_single. exact W. }
          destruct (Hint _ (internal_lt id)) as (Ec & Ws). unfold b_bond. rewrite Ec. exists t, (sy (internal_index id)).
          cbn [option_map claim_map snd a_coeff b_coeff bonding_claim_b]. split; [reflexivity|]. split; [exact Tt|]. split; [exact Ws|]. split; [|reflexivity].
          intros k. rewrite Ct, !map_length, map_map. reflexivity.
      Qed.
      Lemma fb_all_ok (cs : list (claim (K * poly) nat)) : Forall (claim_ok (fun kp => snd kp = src (fst kp) /\ wfp (snd kp)) reg_ok) cs ->
        exists l, opt_all (fb_claim n NC z cy) cs = Some l /\
          Forall2 (fun c tb => tracks F NC K src (fst tb) /\ wfp (snd tb) /\
            (forall k, coeff_at (fst (fst tb)) k = a_coeff z (claim_map snd snd snd (fun x => x) c) k) /\
            (forall k, coeff_at (snd tb) k = b_coeff n z sy (claim_map snd snd snd (fun x => x) c) k)) cs l.
      Proof.
        induction 1 as [|c cs Hc Hcs (l & E & H2)]; cbn [opt_all]; [exists []; auto|].
        destruct (fb_claim_ok c Hc) as (t & b & -> & Tt & Wb & Ca & Cb). rewrite E. cbn [option_map]. exists ((t, b) :: l). split; [reflexivity|].
        constructor; auto.
      Qed.
    End T.

    (** ** evaluations *)
    Variable x : F.
    Definition ev_c (c : claim poly nat) : claim F F :=
      claim_map (fun p => p_eval NC p (x * z)) (fun p => p_eval NC p x) (fun p => p_eval NC p (x * z)) (fun id => p_eval NC (sy id) x) c.
    Definition ev_a (c : claim F F) : F :=
      match c with CRaw a _ => a | CApp _ r => r | CInt _ rs => lsum rs | CBond _ rs => peval (rev rs) z end.
    Definition ev_b (fr : icid -> F) (t : F) (c : claim F F) : F :=
      match c with CRaw _ b => b | CApp s r => r + s + t | CInt id rs => lsum rs + fr id + t | CBond id _ => fr id end.
    Lemma eval_lsum (rs : list poly) a (w : F) : Forall wfp rs -> wfp a -> (forall k, coeff_at a k = lsum (map (fun r => coeff_at r k) rs)) ->
      p_eval NC a w = lsum (map (fun p => p_eval NC p w) rs).
    Proof.
      intros HF Wa C. rewrite (SparseProofs.eval_ok F NC a w Wa).
      rewrite (fsum_ext F NC _ (fun k => lsum (map (fun r => coeff_at r k) rs) * w ^ k)) by (intros k _; now rewrite C).
      clear C Wa a. induction HF as [|r rs Wr HF IH]; cbn [map].
      - apply fsum_zero. intros k _. change (lsum []) with (0 : F). ring.
      - change (lsum (p_eval NC r w :: ?l)) with (p_eval NC r w + lsum l). rewrite <- IH, (SparseProofs.eval_ok F NC r w Wr), <- fsum_add.
        apply fsum_ext. intros k _. change (lsum (coeff_at r k :: ?l)) with (coeff_at r k + lsum l). ring.
    Qed.
    Lemma eval_bond (rs : list poly) a (w : F) : Forall wfp rs -> wfp a -> (forall k, coeff_at a k = hfold (length rs) z (fun i => coeff_at (nth i rs []) k)) ->
      p_eval NC a w = peval (rev (map (fun p => p_eval NC p w) rs)) z.
    Proof.
      intros HF Wa C. rewrite (eval_hfold F NC (length rs) z w (fun i => nth i rs []) a Wa (fun i => wf_nth F NC rs i HF) C).
      rewrite peval_rev_hfold, map_length. apply hfold_ext. intros i Hi.
      rewrite (nth_indep _ 0 (p_eval NC [] w)) by (rewrite map_length; exact Hi). rewrite (map_nth (fun p => p_eval NC p w)). reflexivity.
    Qed.
    Lemma eval_circuit_b (a b s : poly) : wfp a -> wfp b -> wfp s -> (forall k, coeff_at b k = coeff_at a k * z ^ k + coeff_at s k + t_coeff n z k) ->
      p_eval NC b x = p_eval NC a (x * z) + p_eval NC s x + t_spec F n x z.
    Proof.
      intros Wa Wb Ws C. destruct (t_z_ok F n z) as (tz & Et & Wt & Ct). rewrite <- (tz_eval F n x z tz Et).
      rewrite !(SparseProofs.eval_ok F NC) by assumption. rewrite <- !fsum_add. apply fsum_ext. intros k _. rewrite C, Ct, fpow_mul_base.
      unfold t_coeff. ring.
    Qed.
    Lemma ev_claim_eval (c : claim poly nat) a b : claim_ok wfp reg_ok c -> wfp a -> wfp b ->
      (forall k, coeff_at a k = a_coeff z c k) -> (forall k, coeff_at b k = b_coeff n z sy c k) ->
      p_eval NC a (x * z) = ev_a (ev_c c) /\ p_eval NC b x = ev_b (fun id => p_eval NC (sy (internal_index id)) x) (t_spec F n x z) (ev_c c).
    Proof.
      intros Hc Wa Wb Ca Cb.
      assert (XE : forall (p q : poly) w, wfp p -> wfp q -> (forall k, coeff_at p k = coeff_at q k) -> p_eval NC p w = p_eval NC q w).
      { intros p q w Wp Wq E. rewrite !(SparseProofs.eval_ok F NC) by assumption. apply fsum_ext. intros k _. now rewrite E. }
      destruct c as [pa pb|id r|id rs|id rs]; cbn [claim_ok] in Hc; cbn [a_coeff b_coeff ev_c claim_map ev_a ev_b] in *.
      - destruct Hc. split; apply XE; auto.
      - destruct Hc as ((_ & Ws) & Wr). split; [apply XE; auto|]. apply eval_circuit_b; auto.
      - destruct Hc as (_ & HF). destruct (Hint _ (internal_lt id)) as (_ & Ws). split; [apply eval_lsum; auto|].
        rewrite <- (eval_lsum rs a (x * z) HF Wa Ca). apply eval_circuit_b; auto. intros k. rewrite Cb, Ca. reflexivity.
      - destruct Hc as (_ & HF). destruct (Hint _ (internal_lt id)) as (_ & Ws). split; [apply eval_bond; auto|]. apply XE; auto.
    Qed.

    Lemma ev_claim_w (c : claim F F) (fr : icid -> F) (t : F) r :
      holds (ev_claim 1 false (wir z) (wir t) (fun id => wir (fr id)) (claim_map wir wir wir wir c)) r
      <-> r = (wir (ev_a c), wir (ev_b fr t c)).
    Proof.
      destruct c as [a b|s rx|id rs|id rs]; cbn [claim_map ev_claim ev_a ev_b].
      - apply ret_w.
      - rewrite !e_add_bw. apply ret_w.
      - rewrite (holds_det F _ _ _ _ (fun y => e_sum_w F rs y)). rewrite !e_add_bw. apply ret_w.
      - rewrite (holds_det F _ _ _ _ (fun y => e_fold_w F rs z y)). apply ret_w.
    Qed.
    Lemma ev_claim_s (c : claim F F) (fr : icid -> F) (t : F) st :
      exists k, simulate (ev_claim 1 true (hon z) (hon t) (fun id => hon (fr id)) (claim_map hon hon hon hon c)) st
      = Some ((hon (ev_a c), hon (ev_b fr t c)), bump st 0 k (2 * k)).
    Proof.
      assert (B0 : st = bump st 0 0 0) by (destruct st; unfold bump; cbn; f_equal; lia).
      destruct c as [a b|s rx|id rs|id rs]; cbn [claim_map ev_claim ev_a ev_b].
      - exists O. rewrite B0 at 1. reflexivity.
      - exists O. rewrite sim_bind, e_add_s, sim_bind, e_add_s. rewrite B0 at 1. reflexivity.
      - exists O. rewrite sim_bind, e_sum_s, sim_bind, e_add_s, sim_bind, e_add_s. rewrite B0 at 1. reflexivity.
      - rewrite sim_bind, e_fold_s. eexists. reflexivity.
    Qed.
    Lemma ev_claims_w (fr : icid -> F) (t : F) : forall cs r,
      holds (ev_claims 1 false (wir z) (wir t) (fun id => wir (fr id)) (map (claim_map wir wir wir wir) cs)) r
      <-> r = map (fun c => (wir (ev_a c), wir (ev_b fr t c))) cs.
    Proof.
      induction cs as [|c cs IH]; intros r; cbn [map ev_claims]; [apply ret_w|].
      rewrite (holds_det F _ _ _ _ (fun y => ev_claim_w c fr t y)). rewrite (holds_det F _ _ _ _ IH). apply ret_w.
    Qed.
    Lemma ev_claims_s (fr : icid -> F) (t : F) : forall cs st,
      exists k, simulate (ev_claims 1 true (hon z) (hon t) (fun id => hon (fr id)) (map (claim_map hon hon hon hon) cs)) st
      = Some (map (fun c => (hon (ev_a c), hon (ev_b fr t c))) cs, bump st 0 k (2 * k)).
    Proof.
      induction cs as [|c cs IH]; intros st; cbn [map ev_claims].
      - exists O. cbn [simulate]. f_equal. f_equal. destruct st; unfold bump; cbn; f_equal; lia.
      - destruct (ev_claim_s c fr t st) as (k1 & E1). rewrite sim_bind, E1. destruct (IH (bump st 0 k1 (2 * k1))) as (k2 & E2).
        rewrite sim_bind, E2. exists (k1 + k2)%nat. cbn [simulate]. rewrite bump_bump'. f_equal. f_equal. f_equal. lia.
    Qed.
  End B.
End P.
