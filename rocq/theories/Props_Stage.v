(** C23-C25: stages, stage masks and bonding circuits. *)
From Coq Require Import List Arith ZArith NArith Bool Lia Permutation Field.
From Verif Require Import FieldDef GF ModDef ArithModel ArithSpec FFTModel SparseModel SparseSpec SparseProofs SparseProofs2
  CircModel SyModel TraceModel CircSpec SProofs TraceProofs RegModel RegSpec RegProofs2
  StageModel StageSpec StageProofs StageProofs2 StageProofs3 Props_Circ.
Import ListNotations.
Open Scope f_scope.

(** ** C23 *)
(** Stage i of a chain (base first) starts after the SYSTEM gate and two values
    per gate of each earlier stage; the stages tile the gates between the SYSTEM
    gate and the final witness without overlap. *)
Theorem C23_layout : forall (vals : list nat),
  (forall i, skip_gates (rev (firstn i vals)) = stage_start vals i) /\
  (forall v, stage_gates v = ((v + 1) / 2)%nat) /\
  (forall i j g, in_stage vals i g -> in_stage vals j g -> i = j) /\
  (forall g, (exists i, in_stage vals i g) <-> (1 <= g < stage_start vals (length vals))%nat).
Proof.
  intros vals. split; [apply skip_start|]. split; [apply ceil2|]. split; [apply stage_disjoint|apply stage_cover].
Qed.
Print Assumptions C23_layout.

(** A stage polynomial is refused exactly when the stage returns more values
    than declared or does not fit; otherwise its values are, in order, the b and
    d wires of its own gates, alpha is the d wire of gate 0 and every other
    coefficient is zero.  [generator_index_for_b] is the exponent of b wire i. *)
Theorem C23_stage_polynomial : forall (F : Field) n parents values (alpha : F) out,
  let start := skip_gates parents in
  (stage_rx n parents values alpha out = None <->
   (values < length out \/ n < start + (values + 1) / 2)%nat) /\
  forall q, stage_rx n parents values alpha out = Some q ->
    wf 0 (4 * n) q /\
    (forall i, (i < 2 * ((values + 1) / 2))%nat ->
       coeff_at q ((if Nat.even i then 2 * n - 1 else 4 * n - 1) - (start + i / 2)) = nth i out 0) /\
    coeff_at q (4 * n - 1) = alpha /\
    (forall i g, generator_index_for_b n parents values i = Some g -> coeff_at q g = nth (2 * i) out 0) /\
    (forall e, (e < 4 * n)%nat -> active start ((values + 1) / 2) (gate_of n e) = false -> coeff_at q e = 0) /\
    (forall e, (e < n \/ 2 * n <= e < 3 * n \/ e = 2 * n - 1)%nat -> coeff_at q e = 0).
Proof.
  intros F n parents values alpha out start. pose proof (stage_rx_ok F n parents values alpha out) as H. cbn zeta in H. fold start in H.
  rewrite ceil2 in H. assert (P : (1 <= start)%nat) by (unfold start; clear; induction parents; cbn [skip_gates]; lia).
  destruct (Nat.leb_spec (length out) values) as [L|L], (Nat.leb_spec (start + (values + 1) / 2) n) as [M|M]; cbn [andb] in H.
  2,3,4: rewrite H; split; [split; [intros _; lia|reflexivity]|discriminate].
  destruct H as (q & E & W & a & b & c & d & C & H). rewrite E. split; [split; [discriminate|lia]|]. intros q' [= <-].
  split; [exact W|].
  assert (Bc : forall j, (j < n)%nat -> coeff_at q (2 * n - 1 - j) = scol F start ((values + 1) / 2) 0 out j).
  { intros j Hj. rewrite C, trace_coeff_b by exact Hj. apply H. }
  assert (Dc : forall j, (j < n)%nat -> coeff_at q (4 * n - 1 - j) = if Nat.eqb j 0 then alpha else scol F start ((values + 1) / 2) 1 out j).
  { intros j Hj. rewrite C, trace_coeff_d by exact Hj. apply H. }
  assert (I1 : forall i, (i < 2 * ((values + 1) / 2))%nat ->
       coeff_at q ((if Nat.even i then 2 * n - 1 else 4 * n - 1) - (start + i / 2)) = nth i out 0).
  { intros i Hi. pose proof (Nat.div_mod i 2 ltac:(lia)) as DM. pose proof (Nat.mod_upper_bound i 2 ltac:(lia)) as MB.
    assert (Ev : Nat.even i = Nat.eqb (i mod 2) 0).
    { rewrite DM at 1. rewrite Nat.even_add, Nat.even_mul. cbn [Nat.even orb]. destruct (i mod 2) as [|[|]]; try lia; reflexivity. }
    rewrite Ev. destruct (Nat.eqb_spec (i mod 2) 0) as [Z|Z].
    - rewrite Bc by lia. unfold scol. destruct (Nat.leb_spec start (start + i / 2)); [|lia].
      destruct (Nat.ltb_spec (start + i / 2) (start + (values + 1) / 2)); [|lia]. cbn [andb]. f_equal. lia.
    - rewrite Dc by lia. destruct (Nat.eqb_spec (start + i / 2) 0); [lia|]. unfold scol. destruct (Nat.leb_spec start (start + i / 2)); [|lia].
      destruct (Nat.ltb_spec (start + i / 2) (start + (values + 1) / 2)); [|lia]. cbn [andb]. f_equal. lia. }
  split; [exact I1|]. split.
  { pose proof (Dc 0%nat ltac:(lia)) as X. rewrite Nat.sub_0_r in X. exact X. }
  split.
  { intros i g Hg. unfold generator_index_for_b in Hg. fold start in Hg. rewrite ceil2 in Hg.
    destruct (Nat.ltb_spec i ((values + 1) / 2)); [|discriminate]. injection Hg as <-.
    rewrite <- (I1 (2 * i)%nat) by lia. rewrite Nat.even_mul. cbn [Nat.even orb]. rewrite (Nat.mul_comm 2 i), Nat.div_mul by lia. f_equal. lia. }
  assert (Sz : forall par j, active start ((values + 1) / 2) j = false -> scol F start ((values + 1) / 2) par out j = 0).
  { intros par j A. unfold active in A. apply orb_false_iff in A. unfold scol. now rewrite (proj2 A). }
  split.
  - intros e He A. rewrite C. unfold trace_coeff, gate_of in *.
    destruct (Nat.ltb_spec e n); [apply H|]. destruct (Nat.ltb_spec e (2 * n)).
    { destruct (H (2 * n - 1 - e)%nat) as (_ & -> & _). auto. }
    destruct (Nat.ltb_spec e (3 * n)); [apply H|]. destruct (Nat.ltb_spec e (4 * n)); [|reflexivity].
    destruct (H (4 * n - 1 - e)%nat) as (_ & _ & _ & ->). destruct (Nat.eqb_spec (4 * n - 1 - e) 0) as [Z|Z]; [|auto].
    rewrite Z in A. discriminate.
  - intros e He. rewrite C. unfold trace_coeff. destruct (Nat.ltb_spec e n); [apply H|]. destruct (Nat.ltb_spec e (2 * n)).
    + replace (2 * n - 1 - e)%nat with 0%nat by lia. destruct (H 0%nat) as (_ & -> & _). unfold scol. destruct (Nat.leb_spec start 0); [lia|reflexivity].
    + destruct (Nat.ltb_spec e (3 * n)); [apply H|lia].
Qed.
Print Assumptions C23_stage_polynomial.

(** The builder rejects exactly the chains with a gadget of more wires than the
    stage declares.  Otherwise, whatever the circuit [k] that follows does, it
    runs right after the last stage gate, and wire j injected for stage i is
    wire j of that stage's own gates; injecting fails only when the gadget asks
    for more wires than were reserved. *)
Theorem C23_wires : forall (F : Field) (stages : list (nat * nat)) (k : prog F),
  let vals := map fst stages in
  (add_stages 4 stages k = None <-> exists v w, In (v, w) stages /\ (v < w)%nat) /\
  forall guards p, add_stages 4 stages k = Some (guards, p) ->
    length guards = length stages /\
    forall val : nat -> kind -> nat -> F, exists wires,
      sem val p 0 1 1 None (system_wires val) =
      sem val k 0 1 (stage_start vals (length stages)) None (system_wires val ++ wires) /\
      forall i v w, nth_error stages i = Some (v, w) ->
        exists ws, nth_error guards i = Some ws /\ length ws = w /\
          (forall m, inject m ws = if (m <=? w)%nat then Some (firstn m ws) else None) /\
          forall j r, nth_error ws j = Some r ->
            lookup (one_val val) (system_wires val ++ wires) r = stage_wire (val 0%nat) (stage_start vals i) j.
Proof.
  intros F stages k vals. rewrite add_stages_ok. fold vals.
  destruct (forallb (fun s => (snd s <=? fst s)%nat) stages) eqn:E.
  2:{ split; [|discriminate]. split; [intros _|reflexivity].
      assert (X : existsb (fun s => negb (snd s <=? fst s)%nat) stages = true).
      { clear -E. induction stages as [|s l IH]; cbn in *; [discriminate|]. destruct (snd s <=? fst s)%nat; cbn in *; auto. }
      apply existsb_exists in X. destruct X as ([v w] & I & N). exists v, w. split; auto. cbn in N. destruct (Nat.leb_spec w v); [discriminate|lia]. }
  split.
  { split; [discriminate|]. intros (v & w & I & L). rewrite forallb_forall in E. specialize (E _ I). cbn in E. apply Nat.leb_le in E. lia. }
  intros guards p [= <- <-]. split; [now rewrite map_length, seq_length|]. intros val.
  set (G := (stage_start vals (length stages) - 1)%nat).
  exists (flat_map (fun t => [val 0%nat KB (1 + t)%nat; val 0%nat KD (1 + t)%nat]) (seq 0 G)).
  pose proof (start_pos vals (length stages)) as SP.
  split. { rewrite (sem_allocs F val G) by (rewrite repeat_length; reflexivity). f_equal. unfold G. lia. }
  intros i v w Hi. assert (Li : (i < length stages)%nat) by (apply nth_error_Some; congruence).
  assert (Nv : nth i stages (0, 0)%nat = (v, w)) by (now apply nth_error_nth).
  exists (map WVar (seq (4 + 2 * (stage_start vals i - 1)) w)).
  assert (Lw : length (map WVar (seq (4 + 2 * (stage_start vals i - 1)) w)) = w) by (now rewrite map_length, seq_length).
  split.
  { rewrite nth_error_map. rewrite (nth_error_nth' _ 0%nat) by (now rewrite seq_length). rewrite seq_nth by exact Li.
    cbn [Nat.add option_map]. now rewrite Nv. }
  split; [exact Lw|]. split. { intros m. rewrite inject_ok, Lw. reflexivity. }
  intros j r Hr. assert (Lj : (j < w)%nat) by (rewrite <- Lw; apply nth_error_Some; congruence).
  rewrite nth_error_map, (nth_error_nth' _ 0%nat) in Hr by (now rewrite seq_length). rewrite seq_nth in Hr by exact Lj. cbn [option_map] in Hr.
  assert (Er : r = WVar (4 + 2 * (stage_start vals i - 1) + j)) by congruence. subst r.
  cbn [lookup]. rewrite app_nth2 by (cbn [system_wires length]; lia). cbn [system_wires length].
  replace (4 + 2 * (stage_start vals i - 1) + j - 4)%nat with (2 * (stage_start vals i - 1) + j)%nat by lia.
  assert (Wv : (w <= v)%nat). { rewrite forallb_forall in E. specialize (E (v, w) (nth_error_In _ _ Hi)). now apply Nat.leb_le in E. }
  assert (Hv : nth_error vals i = Some v) by (unfold vals; rewrite nth_error_map, Hi; reflexivity).
  pose proof (start_S vals i v Hv) as SS. pose proof (start_mono vals (S i) (length stages) Li) as SM.
  pose proof (ceil2_bounds v) as CB. rewrite ceil2 in CB. pose proof (start_pos vals i) as SPi.
  rewrite nth_flat_pairs by (unfold G; lia). unfold stage_wire.
  rewrite Nat.even_add, Nat.even_mul. cbn [Nat.even orb].
  replace ((2 * (stage_start vals i - 1) + j) / 2)%nat with (stage_start vals i - 1 + j / 2)%nat.
  2:{ rewrite (Nat.mul_comm 2), (Nat.add_comm _ j), Nat.div_add by lia. lia. }
  destruct (Nat.even j); cbn [Bool.eqb]; f_equal; lia.
Qed.
Print Assumptions C23_wires.

(** Adding the stage polynomials to the polynomial of the final witness (whose
    stage allocations are zero) gives exactly the polynomial of the same program
    run with the stages' values (short stages padded with zeros); the alphas
    add up. *)
Theorem C23_sum : forall (F : Field) n (stages : list (nat * list F)) (k : prog F) (outs : list wref) guards final
    (alpha0 : F) (alphas : nat -> F) order,
  (forall l, Permutation (order l) l) ->
  add_stages 4 (map (fun s => (fst s, length (snd s))) stages) k = Some (guards, final) ->
  (list_sum (map fst (sizes (orchestrate final outs))) <= n)%nat ->
  let vals := map fst stages in
  let full := allocs (flat_map (fun s => padded (fst s) (snd s)) stages) k in
  let plan := floor_plan (sizes (orchestrate final outs)) in
  sizes (orchestrate full outs) = sizes (orchestrate final outs) /\
  exists trace final_trace q qf (qs : nat -> poly F),
    trace_eval order full = Some trace /\ trace_eval order final = Some final_trace /\
    assemble n (4 * n) plan (alpha0 + fsum (length stages) alphas) trace = Some q /\
    assemble n (4 * n) plan alpha0 final_trace = Some qf /\
    (forall i v out, nth_error stages i = Some (v, out) -> stage_rx n (rev (firstn i vals)) v (alphas i) out = Some (qs i)) /\
    forall e, coeff_at q e = coeff_at qf e + fsum (length stages) (fun i => coeff_at (qs i) e).
Proof.
  intros F n stages k outs guards final alpha0 alphas order Ho Ea Hn vals full plan.
  rewrite add_stages_ok in Ea. destruct (forallb _ _) eqn:Ef in Ea; [|discriminate]. injection Ea as _ Ep.
  rewrite map_map, map_length in Ep. change (map (fun x => fst (fst x, length (snd x))) stages) with (map fst stages) in Ep. fold vals in Ep.
  assert (Fit : Forall (fun s => (length (snd s) <= fst s)%nat) stages).
  { apply Forall_forall. intros s Hs. rewrite forallb_forall in Ef. specialize (Ef (fst s, length (snd s))).
    apply Nat.leb_le. apply Ef. apply in_map_iff. exists s. auto. }
  change (allocs _ k) with (final_prog F stages k) in Ep. subst final.
  destruct (stages_sum F n stages k outs alpha0 alphas Fit Hn order Ho) as (Sz & trf & tr & qf & q & T & T' & A & A' & _ & _ & S & _).
  split; [exact Sz|]. exists tr, trf, q, qf, (qof F n stages alphas).
  change (flat_map (fun s => padded (fst s) (snd s)) stages) with (flat_vals F stages) in full. fold full in Sz, A, A', T.
  split; [exact T|]. split; [exact T'|]. unfold plan. rewrite <- Sz. split; [exact A|]. split; [exact A'|]. split; [|exact S].
  intros i v out Hi. assert (Li : (i < length stages)%nat) by (apply nth_error_Some; congruence).
  destruct (stage_some F n stages k outs alphas Fit Hn i Li) as (q' & E & _). unfold qof.
  unfold nst in *. rewrite (nth_error_nth _ _ _ Hi) in *. cbn [fst snd] in *. unfold parents in *. fold vals in E |- *. rewrite E. reflexivity.
Qed.
Print Assumptions C23_sum.

(** Every stage polynomial has revdot zero against its mask, and the final
    witness against the final mask, at every y. *)
Theorem C23_masked : forall (F : Field) n (y : F),
  (forall parents values alpha out q, stage_rx n parents values alpha out = Some q ->
     exists m s, stage_mask n parents values = Some m /\ mask_project n m y = Some s /\ p_revdot (4 * n) q s = 0) /\
  (forall (stages : list (nat * nat)) k guards final outs alpha tr q order,
     (forall l, Permutation (order l) l) ->
     add_stages 4 stages k = Some (guards, final) -> trace_eval order final = Some tr ->
     assemble n (4 * n) (floor_plan (sizes (orchestrate final outs))) alpha tr = Some q ->
     forall parents v w, rev stages = (v, w) :: parents ->
     exists m s, stage_final_mask n (map fst parents) v = Some m /\ mask_project n m y = Some s /\ p_revdot (4 * n) q s = 0).
Proof.
  intros F n y. split.
  - intros parents values alpha out q E. destruct (C23_stage_polynomial F n parents values alpha out) as [N H].
    destruct (H q E) as (W & _ & _ & _ & Z & _). set (start := skip_gates parents) in *.
    assert (P : (1 <= start)%nat) by (unfold start; clear; induction parents; cbn [skip_gates]; lia).
    assert (B : (start + (values + 1) / 2 <= n)%nat).
    { destruct (Nat.le_gt_cases (start + (values + 1) / 2) n); auto. assert (stage_rx n parents values alpha out = None) by (apply N; lia). congruence. }
    destruct (mask_revdot F n start ((values + 1) / 2) P B q y W) as (s & Es & _).
    exists (start, ((values + 1) / 2)%nat), s. split.
    { unfold stage_mask, mask_new. fold start. rewrite ceil2. destruct (Nat.eqb_spec start 0); [lia|].
      destruct (Nat.ltb_spec n (start + (values + 1) / 2)); [lia|reflexivity]. }
    split; [exact Es|]. eapply mask_passes; eauto.
  - intros stages k guards final outs alpha tr q order Ho Ea Et Eq parents v w Er.
    rewrite add_stages_ok in Ea. destruct (forallb _ _) eqn:Ef in Ea; [|discriminate]. injection Ea as _ Ep.
    set (st := map (fun s : nat * nat => (fst s, repeat (0 : F) (snd s))) stages).
    assert (Mf : map fst st = map fst stages) by (unfold st; rewrite map_map; reflexivity).
    assert (Ls : length st = length stages) by (unfold st; apply map_length).
    assert (Fit : Forall (fun s => (length (snd s) <= fst s)%nat) st).
    { unfold st. apply Forall_forall. intros s Hs. apply in_map_iff in Hs. destruct Hs as (s0 & <- & Hs). cbn [fst snd]. rewrite repeat_length.
      rewrite forallb_forall in Ef. now apply Nat.leb_le, Ef. }
    assert (Ep' : final = final_prog F st k) by (subst final; unfold final_prog; now rewrite Mf, Ls).
    assert (Hn : (list_sum (map fst (sizes (orchestrate (final_prog F st k) outs))) <= n)%nat).
    { rewrite <- Ep'. rewrite trace_eval_ok in Et by exact Ho. injection Et as <-. rewrite assemble_ok in Eq.
      rewrite <- (trace_rows_length F alpha). destruct (Nat.ltb_spec n (length (trace_rows F alpha final))); [discriminate|exact H]. }
    destruct (stages_sum F n st k outs alpha (fun _ => 0) Fit Hn order Ho) as (Sz & trf & tr' & qf & q' & T & T' & A & A' & _ & Wf & _ & Z).
    rewrite <- Ep' in T', Sz. rewrite Et in T'. injection T' as <-. rewrite Sz in A'. rewrite Eq in A'. injection A' as <-.
    set (m := stage_start (map fst st) (length st)) in *.
    assert (Em : (skip_gates (map fst parents) + stage_gates v = m)%nat).
    { unfold m. assert (X : stages = rev parents ++ [(v, w)]) by (rewrite <- (rev_involutive stages), Er; reflexivity).
      rewrite Mf, Ls. rewrite <- skip_start. replace (length stages) with (length (map fst stages)) by apply map_length.
      rewrite firstn_all. rewrite X, map_app, rev_app_distr. cbn [map fst rev app skip_gates]. now rewrite map_rev, rev_involutive. }
    pose proof (start_pos (map fst st) (length st)) as P. fold m in P.
    pose proof (stages_fit F n st k outs Hn) as M. fold m in M.
    assert (B : (m + (n - m) <= n)%nat) by lia.
    destruct (mask_revdot F n m (n - m) P B q y Wf) as (s & Es & _).
    exists (m, (n - m)%nat), s. split.
    { unfold stage_final_mask, mask_new_final. rewrite Em. destruct (Nat.eqb_spec m 0); [lia|]. destruct (Nat.ltb_spec n m); [lia|reflexivity]. }
    split; [exact Es|]. eapply mask_passes; eauto. intros e He A0. apply Z; [exact He|].
    pose proof (gate_of_lt n e He) as GL. unfold active in A0. apply orb_false_iff in A0. destruct A0 as [A1 A2].
    apply Nat.eqb_neq in A1. apply andb_false_iff in A2. destruct A2 as [A2|A2]; [apply Nat.leb_gt in A2|apply Nat.ltb_ge in A2]; lia.
Qed.
Print Assumptions C23_masked.

(** Two stages of 3 and 2 values over F97 at rank n = 8, then a circuit that
    checks that the first value of stage 1 is the sum of the last two of stage 0 *)
Definition is_none {A : Type} (o : option A) : bool := match o with None => true | Some _ => false end.
Definition st_chain : list (nat * list F97) := [(3%nat, [l97 5; l97 6; l97 7]); (2%nat, [l97 13])].
Definition st_circ : prog F97 := PEnforce [LAdd (WVar 5); LAdd (WVar 6); LSub (WVar 8)] (PMul (l97 2) (l97 3) (l97 6) PEnd).
Example C23_ex :
  match add_stages (F := F97) 4 (map (fun s => (fst s, length (snd s))) st_chain) st_circ with
  | Some (guards, p) =>
      guards = [[WVar 4; WVar 5; WVar 6]; [WVar 8]] /\
      (list_sum (map fst (sizes (orchestrate p []))) = 5)%nat /\
      match trace_eval (fun l => l) p with
      | Some tr =>
          match assemble 8 32 (floor_plan (sizes (orchestrate p []))) (l97 1) tr,
                stage_rx 8 [] 3 (l97 2) [l97 5; l97 6; l97 7], stage_rx 8 [3%nat] 2 (l97 3) [l97 13] with
          | Some qf, Some q0, Some q1 =>
              map (fun k => v97 (coeff_at qf k)) [15; 14; 13; 12; 11; 31; 30; 29]%nat = [1; 0; 0; 0; 3; 1; 0; 0]%Z /\
              map (fun k => v97 (coeff_at q0 k)) [15; 14; 13; 12; 11; 31; 30; 29]%nat = [0; 5; 7; 0; 0; 2; 6; 0]%Z /\
              map (fun k => v97 (coeff_at q1 k)) [15; 14; 13; 12; 11; 31; 30; 29]%nat = [0; 0; 0; 13; 0; 3; 0; 0]%Z
          | _, _, _ => False
          end
      | None => False
      end
  | None => False
  end /\
  stage_start [3; 2]%nat 1 = 3%nat /\ stage_start [3; 2]%nat 2 = 4%nat /\ in_stage [3; 2]%nat 0 2 /\ in_stage [3; 2]%nat 1 3 /\
  is_none (stage_rx 8 [3%nat] 2 (l97 3) [l97 1; l97 2; l97 3]) = true /\
  is_none (stage_rx 3 [3%nat] 2 (l97 3) [l97 13]) = true /\
  is_none (add_stages (F := F97) 4 [(2, 3)]%nat PEnd) = true.
Proof.
  split; [vm_compute; auto 10|]. split; [reflexivity|]. split; [reflexivity|].
  split; [exists 3%nat; split; [reflexivity|vm_compute; lia]|]. split; [exists 2%nat; split; [reflexivity|vm_compute; lia]|].
  vm_compute. auto.
Qed.

(** ** C24 *)
(** s(x,y) in closed form, s(x,Y) and s(X,y) as polynomials: all are the sum of
    (xy)^e over the exponents e of the gates outside the mask. *)
Theorem C24_mask_values : forall (F : Field) n skip num (x y : F) m,
  mask_new n skip num = Some m ->
  let o := mask_cobj F n m in
  ob_sxy F o x y [] = Some (mask_poly n skip num (x * y)) /\
  (exists q, ob_sx F o x [] = Some q /\ wf 0 (4 * n) q /\ p_eval (4 * n) q y = mask_poly n skip num (x * y)) /\
  (exists q, ob_sy F o y [] = Some q /\ wf 0 (4 * n) q /\ p_eval (4 * n) q x = mask_poly n skip num (x * y)).
Proof.
  intros F n skip num x y m E o. unfold mask_new in E. destruct (Nat.eqb_spec skip 0); [discriminate|].
  destruct (Nat.ltb_spec n (skip + num)); [discriminate|]. injection E as <-. unfold o, mask_cobj. cbn [ob_sxy ob_sx ob_sy].
  split; [f_equal; apply sxy_ok; lia|]. split.
  - apply project_eval; lia.
  - destruct (project_eval F n skip num ltac:(lia) ltac:(lia) y x) as (q & A & B & C). exists q. split; [exact A|]. split; [exact B|].
    rewrite C. f_equal. apply (F_R (f_theory F)).
Qed.
Print Assumptions C24_mask_values.

(** Revdot zero at every y (4n distinct ones suffice) means exactly that every
    coefficient outside the SYSTEM gate and the active gates is zero. *)
Theorem C24_mask_enforces : forall (F : Field) n skip num m (r : poly F),
  mask_new n skip num = Some m -> wf 0 (4 * n) r ->
  let zero_outside := forall e, (e < 4 * n)%nat -> active skip num (gate_of n e) = false -> coeff_at r e = 0 in
  let passes y := exists s, mask_project n m y = Some s /\ p_revdot (4 * n) r s = 0 in
  (zero_outside -> forall y, passes y) /\
  (forall ys, NoDup ys -> (4 * n <= length ys)%nat -> (forall y, In y ys -> passes y) -> zero_outside).
Proof.
  intros F n skip num m r E W zo ps. unfold mask_new in E. destruct (Nat.eqb_spec skip 0); [discriminate|].
  destruct (Nat.ltb_spec n (skip + num)); [discriminate|]. injection E as <-. split.
  - intros Z y. destruct (mask_revdot F n skip num ltac:(lia) ltac:(lia) r y W) as (s & Es & _). exists s. split; [exact Es|].
    apply (mask_passes F n skip num ltac:(lia) ltac:(lia) r y s W Z Es).
  - intros ys ND L HH. unfold zo. apply (mask_enforces F n skip num ltac:(lia) ltac:(lia) r ys W ND L).
    intros y q Hy Eq. destruct (HH y Hy) as (s & Es & V). rewrite Eq in Es. injection Es as <-. exact V.
Qed.
Print Assumptions C24_mask_enforces.

(** Construction is refused exactly for the SYSTEM gate and for out-of-range
    masks; the final mask leaves alone everything from [skip] on. *)
Theorem C24_mask_bounds : forall n skip num,
  (mask_new n skip num = None <-> skip = 0 \/ n < skip + num)%nat /\
  (mask_new_final n skip = None <-> skip = 0 \/ n < skip)%nat /\
  (forall m, mask_new_final n skip = Some m -> mask_new n (fst m) (snd m) = Some m /\
     forall j, (j < n)%nat -> active (fst m) (snd m) j = false <-> (0 < j < skip)%nat).
Proof.
  intros n skip num. unfold mask_new, mask_new_final. split; [|split].
  - destruct (Nat.eqb_spec skip 0), (Nat.ltb_spec n (skip + num)); split; try congruence; try lia; auto.
  - destruct (Nat.eqb_spec skip 0), (Nat.ltb_spec n skip); split; try congruence; try lia; auto.
  - intros m E. destruct (Nat.eqb_spec skip 0) as [|P]; [discriminate|]. destruct (Nat.ltb_spec n skip) as [|L]; [discriminate|].
    injection E as <-. cbn [fst snd]. split.
    + destruct (Nat.eqb_spec skip 0); [lia|]. destruct (Nat.ltb_spec n (skip + (n - skip))); [lia|reflexivity].
    + intros j Hj. unfold active. destruct (Nat.eqb_spec j 0), (Nat.leb_spec skip j), (Nat.ltb_spec j (skip + (n - skip))); cbn [orb andb];
        split; try discriminate; try lia; auto.
Qed.
Print Assumptions C24_mask_bounds.
Example C24_ex : let m := (2, 1)%nat in
  mask_new 4 2 1 = Some m /\ v97 (mask_sxy 4 m (l97 2) (l97 3)) = v97 (mask_poly 4 2 1 (l97 6)) /\
  v97 (mask_sxy 4 m (l97 2) (l97 3)) <> 0%Z /\
  map (fun e => (gate_of 4 e, active 2 1 (gate_of 4 e))) [0; 1; 2; 3; 4; 15]%nat =
    [(0, true); (1, false); (2, true); (3, false); (3, false); (0, true)]%nat /\
  match mask_project 4 m (l97 3) with
  | Some s =>
      match trace_build 16 4 [l97 1; l97 0; l97 5] [l97 1; l97 0; l97 7] [] [l97 9], trace_build 16 4 [l97 1; l97 2] [] [] [] with
      | Some r, Some r' => v97 (p_revdot 16 r s) = 0%Z /\ v97 (p_revdot 16 r' s) <> 0%Z
      | _, _ => False
      end
  | None => False
  end.
Proof. vm_compute. repeat split; discriminate. Qed.

(** ** C25 *)
(** An accepted circuit becomes an object whose three evaluators agree with the
    circuit's wiring polynomial minus x^(2n), and with no constant term in Y. *)
Section StripThm.
Variable F : Field.
Add Field FFps : (f_theory F).
Theorem C25_stripped : forall x0 x1 x2 x3 yc onec hc lg (body wr : prog F) (outs : list wref) o,
  let n := (2 ^ lg)%nat in let p := orchestrate (prog_app body wr) outs in
  bonding_object x0 x1 x2 x3 yc onec hc lg body wr outs = Some o ->
  owned p [] <> None -> hides_d (prog_app body wr) = true -> forallb ref_hides outs = true ->
  obj_is lg o (fun x y => s_spec n p x y - x ^ (2 * n)) /\
  forall x, s_spec n p x 0 - x ^ (2 * n) = 0.
Proof.
  intros x0 x1 x2 x3 yc onec hc lg body wr outs o n p E O H R. unfold bonding_object in E.
  destruct (bv_accepts body); [|discriminate].
  destruct (prog_cobj x0 x1 x2 x3 yc onec hc lg (prog_app body wr) outs) as [o0|] eqn:Eo; [|discriminate]. cbn [obind] in E. injection E as <-.
  assert (Z : forall x, s_spec n p x 0 = x ^ (2 * n)) by (intros x; apply s_spec_zero). split.
  - apply stripped_is; [|exact Z]. apply (prog_cobj_is F x0 x1 x2 x3 yc onec hc lg (prog_app body wr) outs o0 Eo O H R).
  - intros x. rewrite Z. ring.
Qed.
End StripThm.
Print Assumptions C25_stripped.

(** The validator accepts exactly the circuits without gates in which no linear
    combination mentions ONE (also through clones and across routines), and the
    constraints of an accepted circuit depend on nothing but the b and d wires
    outside the SYSTEM gate: neither ONE, nor the SYSTEM gate, nor any a or c
    wire. *)
Theorem C25_validator : forall (F : Field) (body : prog F),
  (bv_accepts body = true <-> exists o, gate_free [false; false; false; false] body o) /\
  (bv_accepts body = true -> hides_system body = true ->
   forall val val' : nat -> kind -> nat -> F,
   (forall s i, (s <> 0 \/ i <> 0)%nat -> val s KB i = val' s KB i /\ val s KD i = val' s KD i) ->
   let r := sem val body 0 1 1 None (system_wires val) in
   let r' := sem val' body 0 1 1 None (system_wires val') in
   sm_own r = sm_own r' /\ sm_subs r = sm_subs r').
Proof.
  intros F body. split; [apply accepts_iff|]. intros A H val val' Ag. apply accepted_indep; auto.
Qed.
Print Assumptions C25_validator.

(** The bonding claim against a trace: revdot zero at every y (4n distinct ones
    suffice) means exactly that all constraints and outputs vanish on it. *)
Theorem C25_claim : forall (F : Field) x0 x1 x2 x3 yc onec hc lg (body wr : prog F) (outs : list wref) (o : cobj F) (a b c d : list F) r,
  let n := (2 ^ lg)%nat in let p := orchestrate (prog_app body wr) outs in
  bonding_object x0 x1 x2 x3 yc onec hc lg body wr outs = Some o -> owned p [] <> None ->
  (length a <= n)%nat -> (length b <= n)%nat -> (length c <= n)%nat -> (length d <= n)%nat ->
  trace_build (4 * n) n a b c d = Some r ->
  let val := placed (sizes p) (columns a b c d) in
  let R := sem val (prog_app body wr) 0 1 1 None (system_wires val) in
  let ok := Forall (fun v => v = 0) (map (lookup (nth 0 b 0) (sm_env R)) outs) /\
            Forall (fun v => v = 0) (sm_own R) /\ Forall (Forall (fun v => v = 0)) (sm_subs R) in
  let claim y := exists q, ob_sy F o y (floor_plan (ob_segs F o)) = Some q /\ p_revdot (4 * n) r q = 0 in
  (ok -> forall y, claim y) /\
  (forall ys, NoDup ys -> (4 * n <= length ys)%nat -> (forall y, In y ys -> claim y) -> ok).
Proof.
  intros F x0 x1 x2 x3 yc onec hc lg body wr outs o a b c d r n p E O La Lb Lc Ld Er val R ok claim. split.
  - apply (bond_claim F x0 x1 x2 x3 yc onec hc lg body wr outs o a b c d r [] E O La Lb Lc Ld Er).
  - intros ys. apply (bond_claim F x0 x1 x2 x3 yc onec hc lg body wr outs o a b c d r ys E O La Lb Lc Ld Er).
Qed.
Print Assumptions C25_claim.

(** The validator never looks at the outputs: a circuit whose only output is ONE
    is accepted, and its stripped polynomial still contains ONE, at Y^1.  So
    "no constraint mentions ONE" fails for the output constraints. *)
Section OutThm.
Variable F : Field.
Add Field FFpo : (f_theory F).
Theorem C25_outputs_refuted : forall x0 x1 x2 x3 yc onec hc lg (b0 y : F),
  let n := (2 ^ lg)%nat in
  exists o r q, bonding_object x0 x1 x2 x3 yc onec hc lg PEnd PEnd [WOne] = Some o /\
    trace_build (4 * n) n [] [b0] [] [] = Some r /\
    ob_sy F o y (floor_plan (ob_segs F o)) = Some q /\ p_revdot (4 * n) r q = y * b0.
Proof.
  intros x0 x1 x2 x3 yc onec hc lg b0 y n.
  assert (Hn : (0 < n)%nat) by (unfold n; pose proof (Nat.pow_nonzero 2 lg); lia).
  assert (B : exists o, bonding_object x0 x1 x2 x3 yc onec hc lg PEnd PEnd [WOne] = Some o).
  { unfold bonding_object, prog_cobj. cbn [bv_accepts bv_run snd negb prog_app].
    destruct (object_ok F x0 x1 x2 x3 yc onec hc (rk_n lg) (rk_nc lg) PEnd [WOne]) as [A _].
    destruct (circuit_object x0 x1 x2 x3 yc onec hc (rk_n lg) (rk_nc lg) PEnd [WOne]) as [segs|] eqn:C; [eexists; reflexivity|].
    exfalso. apply (proj2 A); [|reflexivity]. unfold rk_nc, rk_n. fold n. split; cbn; lia. }
  destruct B as [o Eo]. exists o.
  destruct (trace_build_ok F n [] [b0] [] []) as (r & Er & _ & _); try (cbn; lia). exists r.
  destruct (bond_revdot F x0 x1 x2 x3 yc onec hc lg PEnd PEnd [WOne] o [] [b0] [] [] r y Eo) as (q & Eq & _ & V);
    try (fold n; cbn; lia); [discriminate|exact Er|].
  exists q. split; [exact Eo|]. split; [exact Er|]. split; [exact Eq|]. fold n in V. rewrite V. cbn. ring.
Qed.
End OutThm.
Print Assumptions C25_outputs_refuted.

(** bonding of the chain of C23_ex: the first value of stage 1 is the sum of two
    values of stage 0; the same circuit with a gate or with ONE is refused *)
Definition bond_body : prog F97 :=
  allocs (repeat f0 6) (PAdd [LAdd (WVar 5); LAdd (WVar 6)] (PEnforce [LAdd (WVar 10); LSub (WVar 8)] PEnd)).
Example C25_ex :
  bv_accepts bond_body = true /\ hides_system bond_body = true /\ hides_d bond_body = true /\
  is_none (owned (orchestrate bond_body []) []) = false /\
  bv_accepts (prog_app bond_body (PMul (l97 0) (l97 0) (l97 0) PEnd)) = false /\
  bv_accepts (prog_app bond_body (PClone WOne (PEnforce [LTerm (WVar 11) (CArb (l97 3))] PEnd))) = false /\
  match bonding_object (l97 2) (l97 3) (l97 4) (l97 5) (l97 6) (l97 7) (l97 8) 3 bond_body PEnd [],
        trace_build 32 8 [] [l97 1; l97 5; l97 7; l97 13] [] [l97 9; l97 6], trace_build 32 8 [] [l97 1; l97 5; l97 7; l97 14] [] [l97 9; l97 6] with
  | Some o, Some r, Some r' =>
      let plan := floor_plan (ob_segs F97 o) in
      match ob_sxy F97 o (l97 2) (l97 3) plan, ob_sx F97 o (l97 2) plan, ob_sy F97 o (l97 3) plan with
      | Some v, Some qx, Some qy =>
          v97 v <> 0%Z /\ v97 (p_eval 32 qx (l97 3)) = v97 v /\ v97 (p_eval 32 qy (l97 2)) = v97 v /\ v97 (p_eval 32 qx (l97 0)) = 0%Z /\
          v97 (p_revdot 32 r qy) = 0%Z /\ v97 (p_revdot 32 r' qy) <> 0%Z
      | _, _, _ => False
      end
  | _, _, _ => False
  end.
Proof. vm_compute. repeat split; discriminate. Qed.
