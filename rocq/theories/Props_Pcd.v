(** Claims and expected values (C28), their polynomials and evaluations (C43). *)
From Coq Require Import List Arith ZArith Bool Lia Permutation.
From Verif Require Import FieldDef GF ModDef ArithModel SparseModel SparseSpec SparseProofs TModel TProofs ClaimModel GadgetModel GadgetSpec GadgetProofs PrimModel
  FoldModel FoldSpec FoldProofs FoldProofs2 FoldProofs3 PcdModel PcdSpec PcdProofs PcdProofs2.
Import ListNotations.
Local Open Scope nat_scope.

(** C28.  Zip the claims [build] emits with the values [ky_values] yields (the way
    the verifier does).  For any number of proofs the result is, up to order, each
    proof's seven claims with that proof's own values, and the eight bonding claims,
    over the traces of all the proofs, with zero. *)
Theorem C28_native_order : forall (R A K : Type) (zero : K) (vs : list (pview R A K)),
  Permutation (zip_ky (ky_values (kysource_of zero vs)) (build_claims (source_of vs)))
              (flat_map own_claims vs ++ bond_claims zero vs).
Proof. intros R A K zero vs. apply native_perm. Qed.
Print Assumptions C28_native_order.

(** Nothing is left unmatched, and the number of claims is [7 n + 8]. *)
Theorem C28_native_count : forall (R A K : Type) (zero : K) (vs : list (pview R A K)),
  map fst (zip_ky (ky_values (kysource_of zero vs)) (build_claims (source_of vs))) = build_claims (source_of vs)
  /\ length (build_claims (source_of vs)) = 7 * length vs + 8.
Proof.
  intros R A K zero vs. split.
  - unfold zip_ky. generalize (ky_values (kysource_of zero vs)) (build_claims (source_of vs)). intros k l. generalize 0.
    induction l as [|c l IH]; intros s; cbn [length seq map combine fst]; [reflexivity|]. f_equal. apply IH.
  - apply build_len.
Qed.
Print Assumptions C28_native_count.

(** The verifier's source (one proof) and the two-child source used while fusing and
    in circuit. *)
Theorem C28_one_proof : forall (R A K : Type) (zero c : K) (p : rxcomp -> R) (id : A) (k : child_ky K),
  Permutation (zip_ky (ky_values (one_ky zero c k)) (build_claims (one_source p id)))
    (own_claims (mk_pview p id c (ck_application k) (ck_bridge k) (ck_unified k))
     ++ bond_claims zero [mk_pview p id c (ck_application k) (ck_bridge k) (ck_unified k)]).
Proof.
  intros R A K zero c p id k.
  exact (C28_native_order R A K zero [mk_pview p id c (ck_application k) (ck_bridge k) (ck_unified k)]).
Qed.
Print Assumptions C28_one_proof.

Theorem C28_two_proofs : forall (R A K : Type) (zero cl cr : K) (l r : rxcomp -> R) (idl idr : A) (kl kr : child_ky K),
  let left := mk_pview l idl cl (ck_application kl) (ck_bridge kl) (ck_unified kl) in
  let right := mk_pview r idr cr (ck_application kr) (ck_bridge kr) (ck_unified kr) in
  Permutation (zip_ky (ky_values (two_ky zero cl cr kl kr)) (build_claims (two_source l r idl idr)))
    (own_claims left ++ own_claims right ++ bond_claims zero [left; right])
  /\ length (build_claims (two_source l r idl idr)) = 22.
Proof.
  intros R A K zero cl cr l r idl idr kl kr left right. split.
  - pose proof (C28_native_order R A K zero [left; right]) as H. cbn [flat_map] in H.
    rewrite app_nil_r, <- app_assoc in H. exact H.
  - reflexivity.
Qed.
Print Assumptions C28_two_proofs.

(** On the nested curve the values are the ones of a single proof. *)
Theorem C28_nested : forall (R K A : Type) (one zero : K) (steps : nat) (p : nrxid -> R) (apps : list A),
  zip_ky (nested_ky steps one zero) (build_nested steps (nsource_of [p] apps))
  = nested_own one steps p ++ nested_bond zero steps [p].
Proof. intros. apply nested_zip. Qed.
Print Assumptions C28_nested.

(** For any other number of proofs they are not: the nested iterator yields [steps]
    ones however many proofs there are.  (The property as written, for every number
    of proofs, therefore fails for the nested pair; only the verifier, with one proof,
    uses it.) *)
Theorem C28_nested_several_refuted : forall (R K A : Type) (eqK : forall x y : K, {x = y} + {x <> y}) (one zero : K)
    (steps : nat) (ps : list (nrxid -> R)) (apps : list A),
  one <> zero -> 0 < steps -> length ps <> 1 ->
  ~ Permutation (zip_ky (nested_ky steps one zero) (build_nested steps (nsource_of ps apps)))
                (flat_map (nested_own one steps) ps ++ nested_bond zero steps ps).
Proof. intros R K A eqK one zero steps ps apps H1 H2 H3 HP. apply H3. eapply nested_only_one; eauto. Qed.
Print Assumptions C28_nested_several_refuted.

(** two proofs, values 10.. and 20..: the pairs by position *)
Example ex_c28 : map snd (zip_ky (ky_values (two_ky 0 10 20 (mk_child_ky 11 12 13) (mk_child_ky 21 22 23)))
    (build_claims (two_source (fun c => (1, c)) (fun c => (2, c)) 100 200)))
  = [10; 20; 11; 21; 13; 23; 12; 22; 12; 22; 12; 22; 12; 22; 0; 0; 0; 0; 0; 0; 0; 0].
Proof. vm_compute. reflexivity. Qed.
Example ex_c28_bond : nth 20 (build_claims (two_source (fun c => (1, c)) (fun c => (2, c)) 100 200)) (CRaw (0, AbA) (0, AbA))
  = CBond OuterErrorFinalStaged [(1, Rx RxHashes1); (2, Rx RxHashes1); (1, Rx RxHashes2); (2, Rx RxHashes2);
      (1, Rx RxOuterCollapse); (2, Rx RxOuterCollapse)].
Proof. reflexivity. Qed.
Example ex_c28_nested : map snd (zip_ky (nested_ky 9 1 0) (build_nested 9 (nsource_of [fun c => c] [tt])))
  = [1;1;1;1;1;1;1;1;1;0;0;0;0;0;0;0;0;0;0;0].
Proof. vm_compute. reflexivity. Qed.

(** ** C43 *)
(** The builder succeeds on any nonempty source of well formed polynomials whose
    circuits are registered, and every pair it pushes has the coefficients of the
    claim: a is the raw a, the trace, the sum of the traces or their z-fold, b the
    raw b, a(zX) + s(X) + t(X, z), or the mask. *)
Theorem C43_builder : forall (F : Field) (K : Type) n (z : F) (cy : nat -> option (poly F)) (sy : nat -> poly F) (vs : list (pview (poly F) nat K)),
  vs <> [] ->
  (forall i, i < 13 -> cy i = Some (sy i) /\ wf 0 (4 * n) (sy i)) ->
  (forall v, In v vs -> (forall c, wf 0 (4 * n) (pv_rx v c)) /\ cy (pv_app v) = Some (sy (pv_app v)) /\ wf 0 (4 * n) (sy (pv_app v))) ->
  exists l, b_build n (4 * n) z cy (source_of vs) = Some l /\
    Forall2 (fun c ab => wf 0 (4 * n) (fst ab) /\ wf 0 (4 * n) (snd ab) /\
      (forall k, coeff_at (fst ab) k = a_coeff z c k) /\ (forall k, coeff_at (snd ab) k = b_coeff n z sy c k))
      (build_claims (source_of vs)) l.
Proof.
  intros F K n z cy sy vs Hne Hi Hv. apply (b_all_ok F n z cy sy Hi). apply build_all; [exact Hne|].
  intros v Hin. destruct (Hv v Hin) as (A & B). split; [exact A|exact B].
Qed.
Print Assumptions C43_builder.

(** The tracked builder used while fusing builds the same polynomials, and its
    decompositions are those of the polynomials. *)
Theorem C43_tracked : forall (F : Field) (K Q : Type) n (z : F) (cy : nat -> option (poly F)) (sy : nat -> poly F) (src : Q -> poly F)
    (vs : list (pview (Q * poly F) nat K)),
  vs <> [] ->
  (forall i, i < 13 -> cy i = Some (sy i) /\ wf 0 (4 * n) (sy i)) ->
  (forall v, In v vs -> (forall c, snd (pv_rx v c) = src (fst (pv_rx v c)) /\ wf 0 (4 * n) (snd (pv_rx v c)))
     /\ cy (pv_app v) = Some (sy (pv_app v)) /\ wf 0 (4 * n) (sy (pv_app v))) ->
  exists l l', fb_build n (4 * n) z cy (source_of vs) = Some l /\
    b_build n (4 * n) z cy (source_of (map (pview_map snd snd snd (fun x => x)) vs)) = Some l' /\
    Forall2 (fun tb ab =>
      (forall k, coeff_at (fst (fst tb)) k = coeff_at (fst ab) k) /\
      (forall k, coeff_at (fst (fst tb)) k = lsum (map (fun kc => fmul (snd kc) (coeff_at (src (fst kc)) k)) (snd (fst tb)))) /\
      (forall k, coeff_at (snd tb) k = coeff_at (snd ab) k)) l l'.
Proof.
  intros F K Q n z cy sy src vs Hne Hi Hv.
  destruct (fb_all_ok F n z cy sy Hi Q src (build_claims (source_of vs))) as (l & El & H).
  { apply build_all; [exact Hne|]. intros v Hin. destruct (Hv v Hin) as (A & B). split; [exact A|exact B]. }
  destruct (C43_builder F K n z cy sy (map (pview_map snd snd snd (fun x => x)) vs)) as (l' & El' & H').
  { destruct vs; [congruence|discriminate]. }
  { exact Hi. }
  { intros v Hin. apply in_map_iff in Hin. destruct Hin as (v0 & <- & Hin). destruct (Hv v0 Hin) as (A & B).
    split; [|exact B]. intros c. cbn [pview_map pv_rx]. destruct c; apply A. }
  exists l, l'. split; [exact El|]. split; [exact El'|]. rewrite build_map in H'. clear El El'. revert l' H'.
  induction H as [|c tb cs l (T & W & Ca & Cb) H IH]; intros l' H'; inversion H' as [|c' ab cs' l2 (Wa & Wb & Ca' & Cb') H2]; subst; constructor; auto.
  split; [|split].
  - intros k. rewrite Ca, Ca'. reflexivity.
  - apply T.
  - intros k. rewrite Cb, Cb'. reflexivity.
Qed.
Print Assumptions C43_tracked.

(** In circuit: from the evaluations of the traces at xz, of b at x, of the wiring
    polynomials at x and of t, the two-layer fold of the claims is A(xz) and B(x)
    for the polynomials A and B the prover folds. *)
Theorem C43_evaluations : forall (F : Field) (K : Type) n (x z : F) (cy : nat -> option (poly F)) (sy : nat -> poly F) (vs : list (pview (poly F) nat K))
    M N (s s' t t' : F),
  vs <> [] -> 0 < M -> 7 * length vs + 8 <= M * N ->
  (forall i, i < 13 -> cy i = Some (sy i) /\ wf 0 (4 * n) (sy i)) ->
  (forall v, In v vs -> (forall c, wf 0 (4 * n) (pv_rx v c)) /\ cy (pv_app v) = Some (sy (pv_app v)) /\ wf 0 (4 * n) (sy (pv_app v))) ->
  let at_xz p := p_eval (4 * n) p (fmul x z) in
  let at_x p := p_eval (4 * n) p x in
  let evals := map (pview_map at_xz at_x at_xz (fun id => at_x (sy id))) vs in
  let masks id := at_x (sy (internal_index id)) in
  exists l A1 B1 A B, b_build n (4 * n) z cy (source_of vs) = Some l /\
    fold_inner (poly_foldable (4 * n)) M N (map fst l) s = Some A1 /\ fold_outer (poly_foldable (4 * n)) A1 s' = Some A /\
    fold_inner (poly_foldable (4 * n)) M N (map snd l) t = Some B1 /\ fold_outer (poly_foldable (4 * n)) B1 t' = Some B /\
    (forall r, holds (compute_axbx f1 false (wir z) (wir (t_spec F n x z)) (fun id => wir (masks id)) M N
         (source_of (map (pview_map wir wir wir wir) evals)) (wir s) (wir s') (wir t) (wir t')) r
       <-> r = (wir (at_xz A), wir (at_x B))) /\
    (forall st, exists k, simulate (compute_axbx f1 true (hon z) (hon (t_spec F n x z)) (fun id => hon (masks id)) M N
         (source_of (map (pview_map hon hon hon hon) evals)) (hon s) (hon s') (hon t) (hon t')) st
       = Some ((hon (at_xz A), hon (at_x B)), bump st 0 k (2 * k))).
Proof.
  intros F K n x z cy sy vs M N s s' t t' Hne HM Hcap Hi Hv at_xz at_x evals masks.
  destruct (C43_builder F K n z cy sy vs Hne Hi Hv) as (l & El & H2). exists l.
  assert (Hok : Forall (claim_ok (wf 0 (4 * n)) (reg_ok F n cy sy)) (build_claims (source_of vs))).
  { apply build_all; [exact Hne|]. intros v Hin. destruct (Hv v Hin) as (A & B). split; [exact A|exact B]. }
  assert (Ll : length l <= M * N) by (rewrite <- (forall2_len _ _ _ H2), build_len; exact Hcap).
  set (cs := build_claims (source_of vs)) in *. set (es := map (ev_c F n z sy x) cs).
  assert (HE : map (fun p => at_xz p) (map fst l) = map (ev_a F z) es /\ map (fun p => at_x p) (map snd l) = map (ev_b F masks (t_spec F n x z)) es).
  { unfold es. clear - H2 Hok Hi. revert Hok. induction H2 as [|c [a b] cs l (Wa & Wb & Ca & Cb) H2 IH]; intros Hok; [split; reflexivity|].
    inversion Hok as [|? ? Hc Hok']; subst. destruct (IH Hok') as (E1 & E2). cbn [map fst snd] in *.
    destruct (ev_claim_eval F n z cy sy Hi x c a b Hc Wa Wb Ca Cb) as (V1 & V2). unfold at_xz, at_x, masks in *. rewrite V1, V2, E1, E2. split; reflexivity. }
  destruct HE as (HEa & HEb).
  assert (WA : Forall (wf 0 (4 * n)) (map fst l) /\ Forall (wf 0 (4 * n)) (map snd l)).
  { clear - H2. induction H2 as [|c [a b] cs l (Wa & Wb & _) H2 (I1 & I2)]; cbn [map fst snd] in *; split; constructor; auto. }
  destruct WA as (WA & WB).
  assert (La : length (map fst l) <= M * N) by (rewrite map_length; exact Ll).
  assert (Lb : length (map snd l) <= M * N) by (rewrite map_length; exact Ll).
  destruct (two_layers F (4 * n) M N (map fst l) (map snd l) s t s' t' HM La Lb WA WB)
    as (A1 & B1 & A & B & EA1 & EB1 & _ & _ & _ & _ & EA & EB & _).
  exists A1, B1, A, B. do 5 (split; [assumption|]).
  assert (VA : at_xz A = two_layer M N (map (ev_a F z) es) s s') by (rewrite <- HEa; exact (eval_two_layer F (4 * n) M N _ s s' _ A1 A HM La WA EA1 EA)).
  assert (VB : at_x B = two_layer M N (map (ev_b F masks (t_spec F n x z)) es) t t') by (rewrite <- HEb; exact (eval_two_layer F (4 * n) M N _ t t' _ B1 B HM Lb WB EB1 EB)).
  assert (Les : length es <= M * N) by (unfold es; rewrite map_length, (forall2_len _ _ _ H2); exact Ll).
  unfold compute_axbx, evals. rewrite !build_map. fold cs.
  change (map (claim_map at_xz at_x at_xz (fun id => at_x (sy id))) cs) with es.
  rewrite VA, VB. split.
  - intros r. rewrite (holds_det F _ _ _ _ (ev_claims_w F z masks (t_spec F n x z) es)).
    rewrite !map_map. cbn [fst snd]. rewrite <- (map_map (ev_a F z) wir), <- (map_map (ev_b F masks (t_spec F n x z)) wir).
    rewrite (holds_det F _ _ _ _ (fun y => fold_two_layer_w F M N (map (ev_a F z) es) s s' y HM ltac:(rewrite map_length; exact Les))).
    rewrite (holds_det F _ _ _ _ (fun y => fold_two_layer_w F M N (map (ev_b F masks (t_spec F n x z)) es) t t' y HM ltac:(rewrite map_length; exact Les))).
    apply ret_w.
  - intros st. rewrite sim_bind. destruct (ev_claims_s F z masks (t_spec F n x z) es st) as (k1 & ->).
    rewrite !map_map. cbn [fst snd]. rewrite <- (map_map (ev_a F z) hon), <- (map_map (ev_b F masks (t_spec F n x z)) hon). rewrite sim_bind.
    destruct (fold_two_layer_s F M N (map (ev_a F z) es) s s' (bump st 0 k1 (2 * k1)) HM ltac:(rewrite map_length; exact Les)) as (k2 & ->).
    rewrite sim_bind.
    destruct (fold_two_layer_s F M N (map (ev_b F masks (t_spec F n x z)) es) t t' (bump (bump st 0 k1 (2 * k1)) 0 k2 (2 * k2)) HM ltac:(rewrite map_length; exact Les)) as (k3 & ->).
    exists (k1 + k2 + k3). cbn [simulate]. rewrite !bump_bump'. f_equal. f_equal. f_equal; lia.
Qed.
Print Assumptions C43_evaluations.

(** one proof over F97 with 4 coefficients: the folded evaluations are A(xz), B(x) *)
Definition ex_pv : pview (poly F97) nat unit :=
  mk_pview (fun c => match c with AbA => [(0, [l97 2; l97 3])] | AbB => [(1, [l97 5])] | Rx RxPreamble => [(2, [l97 7; l97 8])]
    | Rx RxQuery => [(0, [l97 1])] | Rx _ => [(3, [l97 4])] end) 20 tt tt tt tt.
Definition ex_sy (i : nat) : poly F97 := [(0, [l97 (Z.of_nat i + 1)%Z]); (3, [l97 6])].
Example ex_c43 :
  let x := l97 3 in let z := l97 5 in
  match b_build 1 4 z (fun i => Some (ex_sy i)) (source_of [ex_pv]) with
  | Some l =>
    match fold_inner (poly_foldable 4) 4 4 (map fst l) (l97 2), fold_inner (poly_foldable 4) 4 4 (map snd l) (l97 9) with
    | Some A1, Some B1 =>
      match fold_outer (poly_foldable 4) A1 (l97 10), fold_outer (poly_foldable 4) B1 (l97 11) with
      | Some A, Some B =>
          let at_xz p := p_eval 4 p (fmul x z) in
          let at_x p := p_eval 4 p x in
          match simulate (compute_axbx f1 true (hon z) (hon (t_spec F97 1 x z)) (fun id => hon (at_x (ex_sy (internal_index id)))) 4 4
              (source_of (map (pview_map hon hon hon hon) (map (pview_map at_xz at_x at_xz (fun id => at_x (ex_sy id))) [ex_pv])))
              (hon (l97 2)) (hon (l97 10)) (hon (l97 9)) (hon (l97 11))) (mk_simst 0 0 0) with
          | Some ((ax, bx), _) => length l = 15 /\ v97 (ew _ _ ax) = v97 (at_xz A) /\ v97 (ew _ _ bx) = v97 (at_x B) /\ v97 (at_xz A) <> v97 (at_x B)
          | None => False
          end
      | _, _ => False
      end
    | _, _ => False
    end
  | None => False
  end.
Proof. vm_compute. repeat split. discriminate. Qed.
