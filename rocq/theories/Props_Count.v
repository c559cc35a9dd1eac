(** C69: the constraint counts reported by circuit objects. *)
From Coq Require Import List Arith ZArith NArith Bool Lia Permutation Field.
From Verif Require Import FieldDef GF ModDef ArithModel ArithSpec FFTModel SparseModel SparseSpec SparseProofs SparseProofs2
  CircModel SyModel TraceModel CircSpec CircProofs CircProofs2 SatProofs SProofs TraceProofs RegModel RegSpec RegProofs2
  StageModel StageSpec StageProofs StageProofs2 StageProofs3 Props_Circ Props_Stage CountModel.
Import ListNotations.
Open Scope f_scope.

Section Count.
Variable F : Field.
Add Field FFu36 : (f_theory F).

(** A circuit object is built exactly when it reports counts.  They fit the
    rank, and s(x, Y) is a polynomial with exactly the reported number of
    coefficients, the constant one being the monomial of ONE. *)
Theorem C69_circuit : forall x0 x1 x2 x3 yc onec hc lg (body : prog F) (outs : list wref),
  let n := (2 ^ lg)%nat in let p := orchestrate body outs in
  (prog_cobj x0 x1 x2 x3 yc onec hc lg body outs <> None <->
   circuit_counts x0 x1 x2 x3 yc onec hc lg body outs <> None) /\
  forall g c, circuit_counts x0 x1 x2 x3 yc onec hc lg body outs = Some (g, c) ->
    (g <= n /\ 1 <= c < 4 * n)%nat /\ g = list_sum (map fst (sizes p)) /\
    forall x, exists cs, length cs = c /\ nth 0 cs 0 = x ^ (2 * n) /\ forall y, s_spec n p x y = peval cs y.
Proof.
  intros x0 x1 x2 x3 yc onec hc lg body outs n p. unfold circuit_counts, prog_cobj, circuit_object.
  destruct (metrics_ok F x0 x1 x2 x3 yc onec hc body outs) as (segs & E & _). rewrite E. fold p.
  destruct (Nat.leb_spec (rk_nc lg) (list_sum (map snd (sizes p)))) as [L|L];
    [split; [cbn; tauto|discriminate]|].
  destruct (Nat.ltb_spec (rk_n lg) (list_sum (map fst (sizes p)))) as [G|G];
    [split; [cbn; tauto|discriminate]|].
  split; [cbn; split; discriminate|]. intros g c Q.
  assert (Qg : g = list_sum (map fst (sizes p))) by congruence.
  assert (Qc : c = list_sum (map snd (sizes p))) by congruence. clear Q. rewrite Qg, Qc.
  assert (Y : forall val : nat -> kind -> nat -> F, exists t, y_coeffs val p = val 0%nat KB 0%nat :: t).
  { intros val. unfold p. rewrite y_coeffs_orch. eexists. reflexivity. }
  unfold rk_nc, rk_n in *. split; [|split; [reflexivity|]].
  - destruct (Y (fun _ _ _ => 0)) as [t Et]. pose proof (y_coeffs_length F (fun _ _ _ => 0) p) as Lg.
    rewrite Et in Lg. cbn [length] in Lg. unfold n. lia.
  - intros x. exists (y_coeffs (placed (sizes p) (mono n x)) p). split; [apply y_coeffs_length|]. split; [|reflexivity].
    pose proof (s_spec_zero F n body outs x) as Z. fold p in Z. unfold s_spec in Z.
    destruct (Y (placed (sizes p) (mono n x))) as [t Et]. rewrite Et in *. cbn [peval nth] in *. rewrite <- Z. ring.
Qed.

(** The count of a bonding object never underflows; what is left after the
    constant coefficient is removed has exactly the reported number of
    coefficients, all of them at positive powers of y. *)
Theorem C69_bonding : forall x0 x1 x2 x3 yc onec hc lg (body wr : prog F) (outs : list wref) g c,
  let n := (2 ^ lg)%nat in let full := prog_app body wr in let p := orchestrate full outs in
  circuit_counts x0 x1 x2 x3 yc onec hc lg full outs = Some (g, c) ->
  exists c', stripped_counts (g, c) = Some (g, c') /\
    forall x, exists cs, length cs = c' /\ forall y, s_spec n p x y - x ^ (2 * n) = y * peval cs y.
Proof.
  intros x0 x1 x2 x3 yc onec hc lg body wr outs g c n full p E.
  destruct (C69_circuit x0 x1 x2 x3 yc onec hc lg full outs) as [_ H]. destruct (H g c E) as (B & _ & D).
  destruct c as [|c']; [lia|]. exists c'. split; [reflexivity|]. intros x. destruct (D x) as (cs & Lc & Hd & P).
  destruct cs as [|c0 cs]; [discriminate|]. cbn [length nth] in *. exists cs. split; [lia|].
  intros y. unfold p, n. rewrite P. cbn [peval]. rewrite Hd. ring.
Qed.

(** The count of a mask: its polynomial has that many coefficients in y and no
    constant one, and the count is attained (the last coefficient is not zero)
    at every nonzero x exactly when the stage does not hold gate 1. *)
Theorem C69_mask : forall n skip num m,
  mask_new n skip num = Some m ->
  exists c, mask_counts n = Some (n, c) /\
    forall x : F, exists cs, length cs = c /\ nth 0 cs 0 = 0 /\
      (forall y, mask_poly n skip num (x * y) = peval cs y) /\
      ((2 <= n)%nat -> x <> 0 -> nth (c - 1) cs 0 <> 0 <-> active skip num 1 = false).
Proof.
  intros n skip num m E. unfold mask_new in E. destruct (Nat.eqb_spec skip 0); [discriminate|].
  destruct (Nat.ltb_spec n (skip + num)); [discriminate|]. clear E m.
  exists (4 * n - 1)%nat. unfold mask_counts. destruct (4 * n)%nat as [|l] eqn:En; [lia|].
  split; [f_equal; f_equal; lia|]. intros x.
  set (f := fun k => if active skip num (gate_of n k) then 0 else x ^ k).
  exists (map f (seq 0 (S l - 1))). rewrite map_length, seq_length. split; [reflexivity|].
  assert (Nf : forall k, (k < S l - 1)%nat -> nth k (map f (seq 0 (S l - 1))) 0 = f k).
  { intros k Hk. rewrite (nth_indep _ 0 (f 0%nat)) by (rewrite map_length, seq_length; exact Hk).
    rewrite map_nth, seq_nth by exact Hk. reflexivity. }
  split; [|split].
  - rewrite Nf by lia. unfold f, gate_of. destruct (Nat.ltb_spec 0 n); [reflexivity|lia].
  - intros y. rewrite peval_map_seq. unfold mask_poly. rewrite En. replace (S l - 1)%nat with l by lia.
    cbn [fsum]. unfold gate_of at 2. destruct (Nat.ltb_spec l n); [lia|]. destruct (Nat.ltb_spec l (2 * n)); [lia|].
    destruct (Nat.ltb_spec l (3 * n)); [lia|]. replace (4 * n - 1 - l)%nat with 0%nat by lia.
    change (active skip num 0) with true. cbv iota.
    transitivity (fsum l (fun k => if active skip num (gate_of n k) then 0 else (x * y) ^ k)); [ring|].
    apply fsum_ext. intros k _. unfold f. destruct (active skip num (gate_of n k)); [ring|apply fpow_mul_base].
  - intros N2 Hx. rewrite Nf by lia. unfold f. replace (gate_of n (S l - 1 - 1)) with 1%nat.
    2:{ unfold gate_of. destruct (Nat.ltb_spec (S l - 1 - 1) n); [lia|]. destruct (Nat.ltb_spec (S l - 1 - 1) (2 * n)); [lia|].
        destruct (Nat.ltb_spec (S l - 1 - 1) (3 * n)); lia. }
    destruct (active skip num 1).
    + split; [intros K; exfalso; apply K; reflexivity|discriminate].
    + split; [reflexivity|]. intros _. apply fpow_nonzero. exact Hx.
Qed.
End Count.
Print Assumptions C69_circuit.
Print Assumptions C69_bonding.
Print Assumptions C69_mask.

(** the bonding circuit of C25_ex: 4 gates (SYSTEM and three pairs) and 2
    constraints (ONE and the enforced sum), of which one is left; a circuit with
    too many gates for the rank reports nothing; masks of rank 8 beside gate 1
    and over it *)
Example C69_ex :
  let q lg b := circuit_counts (l97 2) (l97 3) (l97 4) (l97 5) (l97 6) (l97 7) (l97 8) lg b [] in
  q 3%nat bond_body = Some (4, 2)%nat /\ q 1%nat bond_body = None /\
  stripped_counts (4, 2)%nat = Some (4, 1)%nat /\
  mask_new 8 2 3 = Some (2, 3)%nat /\ mask_counts 8 = Some (8, 31)%nat /\
  active 2 3 1 = false /\ active 1 3 1 = true.
Proof. vm_compute. repeat split; reflexivity. Qed.
