(** Property theorems C13, C30-C33, C40 (gadgets). *)
From Coq Require Import List Arith ZArith NArith Bool Lia Ring Field.
From Verif Require Import FieldDef GF ModDef ArithModel ArithSpec TModel TProofs GadgetModel GadgetSpec GadgetProofs
  PointSpec PointProofs EndoSpec EndoProofs TxzProofs SimProofs PointExample.
Import ListNotations.
Open Scope f_scope.

(** In all statements [holds p r] quantifies over every assignment of the wires
    allocated by [p]; [wir a] is an input element whose wire has the (arbitrary)
    value [a]; [hon a] is the same element with the honest witness value [a]. *)

(** ** C30 *)
Section S_C30_sound.
Variable F : Field.
Add Field FFp30 : (f_theory F).
Theorem C30_sound :
  (forall r, holds (b_alloc F F None) r <-> exists b, r = bwir (fe F b)) /\
  (forall b r, holds (b_not F F 1 (bwir (fe F b))) r <-> r = bwir (fe F (negb b))) /\
  (forall a b r, holds (b_and F F (bwir (fe F a)) (bwir (fe F b))) r <-> r = bwir (fe F (a && b))) /\
  (forall c (a b : F) r, holds (b_select F F (bwir (fe F c)) (wir a) (wir b)) r <-> r = wir (if c then b else a)) /\
  (forall c (a b : F) r, holds (b_cond_equal F F (bwir (fe F c)) (wir a) (wir b)) r <-> (c = true -> a = b) /\ r = tt) /\
  (forall (a : F) r, holds (e_is_zero F F 1 (wir a)) r <-> exists b, (b = true <-> a = 0) /\ r = bwir (fe F b)) /\
  (forall (a b : F) r, holds (e_is_equal F F 1 (wir a) (wir b)) r <-> exists c, (c = true <-> a = b) /\ r = bwir (fe F c)).
Proof.
  refine (conj _ (conj _ (conj _ (conj _ (conj _ (conj _ _)))))).
  - apply b_alloc_w.
  - intros b r. rewrite b_not_w. replace (1 - fe F b) with (fe F (negb b)) by (destruct b; cbn; ring). reflexivity.
  - intros a b r. rewrite b_and_w. replace (fe F a * fe F b) with (fe F (a && b)) by (destruct a, b; cbn; ring). reflexivity.
  - intros c a b r. rewrite b_select_w, select_val. reflexivity.
  - intros c a b r. rewrite b_cond_equal_w. destruct c; cbn [fe].
    + split; intros [H ->]; split; auto.
      * intros _. apply fsub_eq_0. rewrite <- H. ring.
      * rewrite H by reflexivity. ring.
    + split; intros [H ->]; split; auto; [discriminate|ring].
  - intros a r. rewrite e_is_zero_w. split.
    + intros ->. exists (feqb a 0). split; [apply feqb_true|reflexivity].
    + intros (b & Hb & ->). f_equal. f_equal. destruct b, (feqb a 0) eqn:E; auto.
      * apply feqb_false in E. destruct E. now apply Hb.
      * apply feqb_true in E. now apply Hb in E.
  - intros a b r. rewrite e_is_equal_w. split.
    + intros ->. exists (feqb a b). split; [apply feqb_true|reflexivity].
    + intros (c & Hc & ->). f_equal. f_equal. destruct c, (feqb a b) eqn:E; auto.
      * apply feqb_false in E. destruct E. now apply Hc.
      * apply feqb_true in E. now apply Hc in E.
Qed.
End S_C30_sound.
Print Assumptions C30_sound.

(** honest executions: accepted, with the logical value, at the documented cost
    (allocations, gates, constraints) *)
Theorem C30_complete : forall (F : Field) s,
  (forall b, simulate (b_alloc F F (Some b)) s = Some (bhon b, bump s 0 1 2)) /\
  (forall b, simulate (b_not F F 1 (bhon b)) s = Some (bhon (negb b), s)) /\
  (forall a b, simulate (b_and F F (bhon a) (bhon b)) s = Some (bhon (a && b), bump s 0 1 2)) /\
  (forall c (a b : F), simulate (b_select F F (bhon c) (hon a) (hon b)) s = Some (hon (if c then b else a), bump s 0 1 2)) /\
  (forall c (a b : F), simulate (b_cond_equal F F (bhon c) (hon a) (hon b)) s
                       = if implb c (feqb a b) then Some (tt, bump s 0 1 3) else None) /\
  (forall a : F, simulate (e_is_zero F F 1 (hon a)) s = Some (bhon (feqb a 0), bump s 0 2 4)) /\
  (forall a b : F, simulate (e_is_equal F F 1 (hon a) (hon b)) s = Some (bhon (feqb a b), bump s 0 2 4)).
Proof.
  intros F s. refine (conj _ (conj _ (conj _ (conj _ (conj _ (conj _ _)))))).
  - intros b. apply b_alloc_s.
  - intros b. apply b_not_s.
  - intros a b. apply b_and_s.
  - intros c a b. apply b_select_s.
  - intros c a b. apply b_cond_equal_s.
  - intros a. apply e_is_zero_s.
  - intros a b. apply e_is_equal_s.
Qed.
Print Assumptions C30_complete.

(** element j of the packing is the little-endian value of bits
    [j cap, (j+1) cap) (absent bits are 0); there are ceil(len / cap) elements *)
Theorem C30_multipack : forall (F : Field) cap (bits : list bool), (0 < cap)%nat ->
  let packed := map (fun j => fsum cap (fun i => fe F (nth (j * cap + i) bits false) * (1 + 1) ^ i))
                    (seq 0 ((length bits + cap - 1) / cap)) in
  (forall r, holds (b_multipack F F false cap (map (fun b => bwir (fe F b)) bits)) r <-> r = map wir packed) /\
  (forall s, simulate (b_multipack F F true cap (map bhon bits)) s = Some (map hon packed, s)).
Proof.
  intros F cap bits C packed.
  assert (E : map (pack_at F cap (map (fe F) bits)) (seq 0 (npacks (length (map (fe F) bits)) cap)) = packed).
  { rewrite map_length. apply map_ext. intros j. apply fsum_ext. intros i _. f_equal.
    change (0 : F) with (fe F false). apply map_nth. }
  split.
  - intros r. rewrite <- (map_map (fe F) bwir), multipack_w by exact C. rewrite E. reflexivity.
  - intros s. rewrite multipack_s by exact C. rewrite <- E, map_length. reflexivity.
Qed.
Print Assumptions C30_multipack.

Example C30_ex :
  match simulate (b_multipack F97 F97 true 3 (map bhon [true; false; true; true; true])) (mk_simst 0 0 0) with
  | Some (l, _) => map (fun e => v97 (ew F97 F97 e)) l = [5; 3]%Z
  | None => False
  end /\
  match simulate (e_is_zero F97 F97 f1 (hon (l97 3))) (mk_simst 0 0 0) with
  | Some (b, s) => bv F97 b = Some false /\ num_gates s = 2%nat
  | None => False
  end.
Proof. vm_compute. auto. Qed.

(** ** C31 *)
Section S_C31_exact.
Variable F : Field.
Add Field FFp31 : (f_theory F).
Theorem C31_exact :
  (forall r, holds (e_alloc F F None) r <-> exists a, r = wir a) /\
  (forall r, holds (e_alloc_square F F None) r <-> exists a, r = (wir a, wir (a * a))) /\
  (forall (a b : F) r, holds (e_mul F F (wir a) (wir b)) r <-> r = wir (a * b)) /\
  (forall (a : F) r, holds (e_square F F (wir a)) r <-> r = wir (a * a)) /\
  (forall (a b : F) r, holds (e_add F F (wir a) (wir b)) r <-> r = wir (a + b)) /\
  (forall (a b : F) r, holds (e_sub F F (wir a) (wir b)) r <-> r = wir (a - b)) /\
  (forall (a : F) c r, holds (e_scale F F (wir a) c) r <-> r = wir (a * c_value c)) /\
  (forall (a b : F) c r, holds (e_add_coeff F F (wir a) (wir b) c) r <-> r = wir (a + b * c_value c)) /\
  (forall (a : F) r, holds (e_negate F F (wir a)) r <-> r = wir (- a)) /\
  (forall (a : F) r, holds (e_double F F (wir a)) r <-> r = wir (a + a)) /\
  (forall (a : F) r, holds (e_constant F F 1 false a) r <-> r = wir a) /\
  (forall (a : F) r, holds (e_enforce_zero F F (wir a)) r <-> a = 0 /\ r = tt) /\
  (forall (a : F) r, holds (e_invert F F 1 (wir a)) r <-> a <> 0 /\ exists q, a * q = 1 /\ r = wir q).
Proof.
    refine (conj _ (conj _ (conj _ (conj _ (conj _ (conj _ (conj _ (conj _ (conj _ (conj _ (conj _ (conj _ _)))))))))))).
  - apply alloc_w.
  - apply e_alloc_square_w.
  - apply e_mul_w.
  - apply e_square_w.
  - apply e_add_w.
  - apply e_sub_w.
  - apply e_scale_w.
  - apply e_add_coeff_w.
  - apply e_negate_w.
  - apply e_double_w.
  - apply e_constant_w.
  - apply e_enforce_zero_w.
  - intros a r. rewrite e_invert_w. split.
    + intros [N ->]. split; auto. exists (finv a). split; auto. field. exact N.
    + intros [N (q & H & ->)]. split; auto. f_equal. apply (fmul_cancel_l F a); auto. rewrite H. field. exact N.
Qed.
End S_C31_exact.
Print Assumptions C31_exact.

(** division: exact for a nonzero divisor, unsatisfiable for a/0 with a nonzero,
    and undetermined exactly for 0/0 *)
Section S_C31_division.
Variable F : Field.
Add Field FFp31b : (f_theory F).
Theorem C31_division : forall a b : F,
  (b <> 0 -> forall r, holds (e_div_nonzero F F (wir a) (wir b)) r <-> exists q, q * b = a /\ r = wir q) /\
  (b <> 0 -> exists! r, holds (e_div_nonzero F F (wir a) (wir b)) r) /\
  (b = 0 -> a <> 0 -> forall r, ~ holds (e_div_nonzero F F (wir a) (wir b)) r) /\
  (b = 0 -> a = 0 -> forall q, holds (e_div_nonzero F F (wir a) (wir b)) (wir q)).
Proof.
  intros a b. refine (conj _ (conj _ (conj _ _))).
  - intros _ r. apply e_div_w.
  - intros N. exists (wir (a * finv b)). split.
    + apply e_div_w. exists (a * finv b). split; auto. field. exact N.
    + intros r H. apply e_div_w in H. destruct H as (q & H & ->). f_equal. rewrite <- H. field. exact N.
  - intros -> N r H. apply e_div_w in H. destruct H as (q & H & _). apply N. rewrite <- H. ring.
  - intros -> -> q. apply e_div_w. exists q. split; auto. ring.
Qed.
End S_C31_division.
Print Assumptions C31_division.

Lemma peval_rev (F : Field) (es : list F) s :
  peval (rev es) s = fsum (length es) (fun i => nth i es 0 * s ^ (length es - 1 - i)).
Proof.
  rewrite peval_fsum, rev_length, <- (fsum_rev F (length es)). apply fsum_ext. intros i Hi.
  rewrite rev_nth by lia. do 2 f_equal. lia.
Qed.

(** Horner folding e_0 s^(n-1) + ... + e_(n-1), sums, linear combinations, and
    membership in the 2^k-th roots of unity *)
Section S_C31_composite.
Variable F : Field.
Add Field FFp31c : (f_theory F).
Theorem C31_composite :
  (forall es (s : F) r, holds (e_fold F F 1 false (map wir es) (wir s)) r <->
     r = wir (fsum (length es) (fun i => nth i es 0 * s ^ (length es - 1 - i)))) /\
  (forall (es : list F) r, holds (e_sum F F 1 false (map wir es)) r <-> r = wir (fsum (length es) (fun i => nth i es 0))) /\
  (forall (vs cs : list F) r, length vs = length cs ->
     (holds (e_multiadd F F false (map wir vs) cs) r <-> r = wir (fsum (length vs) (fun i => nth i vs 0 * nth i cs 0)))) /\
  (forall (vs cs : list F) r, length vs <> length cs -> ~ holds (e_multiadd F F false (map wir vs) cs) r) /\
  (forall k (a : F) r, holds (e_root_of_unity F F 1 false (wir a) k) r <-> a ^ (2 ^ k) = 1 /\ r = tt).
Proof.
   refine (conj _ (conj _ (conj _ (conj _ _)))).
  - intros es s r. rewrite e_fold_w, peval_rev. reflexivity.
  - intros es r. rewrite e_sum_w, lsum_fsum. reflexivity.
  - intros vs cs r L. rewrite e_multiadd_w by exact L. rewrite lsum_fsum, map_length, combine_length, <- L, Nat.min_id.
    rewrite (fsum_ext F (length vs) _ (fun i => nth i vs 0 * nth i cs 0)); [reflexivity|].
    intros i Hi. rewrite (nth_indep _ 0 ((fun vc : F * F => fst vc * snd vc) (0, 0))) by (rewrite map_length, combine_length; lia).
    rewrite (map_nth (fun vc : F * F => fst vc * snd vc)), combine_nth by exact L. reflexivity.
  - intros vs cs r L H. unfold e_multiadd in H. rewrite map_length in H.
    rewrite (proj2 (Nat.eqb_neq _ _) L) in H. exact H.
  - intros k a r. apply e_root_w.
Qed.
End S_C31_composite.
Print Assumptions C31_composite.

(** honest executions: accepted exactly when the documented condition holds, with
    the exact value and cost *)
Theorem C31_complete : forall (F : Field) st,
  (forall a : F, simulate (e_alloc F F (Some a)) st = Some (hon a, bump st 1 0 0)) /\
  (forall a : F, simulate (e_alloc_square F F (Some a)) st = Some (hon a, hon (a * a), bump st 0 1 1)) /\
  (forall a b : F, simulate (e_mul F F (hon a) (hon b)) st = Some (hon (a * b), bump st 0 1 2)) /\
  (forall a b : F, simulate (e_add F F (hon a) (hon b)) st = Some (hon (a + b), st)) /\
  (forall a b : F, simulate (e_sub F F (hon a) (hon b)) st = Some (hon (a - b), st)) /\
  (forall (a : F) c, simulate (e_scale F F (hon a) c) st = Some (hon (a * c_value c), st)) /\
  (forall a : F, simulate (e_enforce_zero F F (hon a)) st = if feqb a 0 then Some (tt, bump st 0 0 1) else None) /\
  (forall a : F, simulate (e_invert F F 1 (hon a)) st = if feqb a 0 then None else Some (hon (finv a), bump st 0 1 2)) /\
  (forall a b : F, simulate (e_div_nonzero F F (hon a) (hon b)) st
     = if feqb b 0 then None else Some (hon (a * finv b), bump st 0 1 2)) /\
  (forall es (s : F), simulate (e_fold F F 1 true (map hon es) (hon s)) st
     = Some (hon (fsum (length es) (fun i => nth i es 0 * s ^ (length es - 1 - i))),
             bump st 0 (length es - 1) (2 * (length es - 1)))) /\
  (forall es : list F, simulate (e_sum F F 1 true (map hon es)) st = Some (hon (fsum (length es) (fun i => nth i es 0)), st)) /\
  (forall k (a : F), simulate (e_root_of_unity F F 1 true (hon a) k) st
     = if feqb (a ^ (2 ^ k)) 1 then Some (tt, bump st 0 k (2 * k + 1)) else None).
Proof.
  intros F st.
  refine (conj _ (conj _ (conj _ (conj _ (conj _ (conj _ (conj _ (conj _ (conj _ (conj _ (conj _ _))))))))))).
  - intros a. apply alloc_s.
  - intros a. apply e_alloc_square_s.
  - intros a b. apply e_mul_s.
  - intros a b. apply e_add_s.
  - intros a b. apply e_sub_s.
  - intros a c. apply e_scale_s.
  - intros a. apply e_enforce_zero_s.
  - intros a. apply e_invert_s.
  - intros a b. apply e_div_s.
  - intros es s. rewrite e_fold_s, peval_rev. reflexivity.
  - intros es. rewrite e_sum_s, lsum_fsum. reflexivity.
  - intros k a. apply e_root_s.
Qed.
Print Assumptions C31_complete.

Example C31_ex :
  match simulate (e_fold F97 F97 f1 true (map hon (map l97 [2; 3; 5]%Z)) (hon (l97 10))) (mk_simst 0 0 0) with
  | Some (e, s) => option_map v97 (ev F97 F97 e) = Some 41%Z /\ num_gates s = 2%nat (* 235 mod 97 *)
  | None => False
  end.
Proof. vm_compute. auto. Qed.

(** ** C32 *)
Theorem C32_alloc : forall (F : Field) (b : F),
  (forall r, holds (p_alloc F F 1 b None) r <-> exists p, on_curve b p /\ r = pwir p) /\
  (forall (x y : F) s, simulate (p_alloc F F 1 b (Some (Some (x, y)))) s
     = if feqb (y * y) (x * (x * x) + b) then Some (phon (x, y), bump s 0 3 5) else None) /\
  (forall s, simulate (p_alloc F F 1 b (Some None)) s = None).
Proof.
  intros F b. refine (conj _ (conj _ _)).
  - apply p_alloc_w.
  - apply p_alloc_s.
  - apply p_alloc_inf.
Qed.
Print Assumptions C32_alloc.

Theorem C32_maps : forall (F : Field) (zeta : F) (p : F * F) (c : bool) r,
  (holds (p_endo F F zeta (pwir p)) r <-> r = pwir (zeta * fst p, snd p)) /\
  (holds (p_negate F F (pwir p)) r <-> r = pwir (fst p, - snd p)) /\
  (holds (p_cond_endo F F zeta (pwir p) (bwir (fe F c))) r <-> r = pwir (if c then zeta * fst p else fst p, snd p)) /\
  (holds (p_cond_negate F F (pwir p) (bwir (fe F c))) r <-> r = pwir (fst p, if c then - snd p else snd p)).
Proof.
  intros F zeta p c r. refine (conj _ (conj _ (conj _ _))).
  - apply p_endo_w.
  - apply p_negate_w.
  - apply p_cond_endo_w.
  - apply p_cond_negate_w.
Qed.
Print Assumptions C32_maps.

(** the line-intersection law is a function on the non-exceptional inputs and
    stays on the curve *)
Theorem C32_law : forall (F : Field) (b : F) p q, (1 + 1 : F) <> 0 -> on_curve b p -> on_curve b q ->
  (fst p <> fst q \/ (p = q /\ snd p <> 0)) ->
  exists! r, sum_of b p q r /\ on_curve b r.
Proof.
  intros F b p q two Op Oq H.
  assert (X : exists r, sum_of b p q r).
  { destruct H as [D|[-> Y]]; [now apply sum_ex_chord|now apply sum_ex_tangent]. }
  destruct X as (r & S). exists r. split.
  - split; auto. eapply sum_on; eauto.
  - intros r' [S' _]. eapply (sum_fun F b two p q); eauto.
Qed.
Print Assumptions C32_law.

Theorem C32_double : forall (F : Field) (b : F) p, (1 + 1 : F) <> 0 -> on_curve b p ->
  (snd p <> 0 -> forall r, holds (p_double F F (pwir p)) r <-> exists q, sum_of b p p q /\ r = pwir q) /\
  (snd p <> 0 -> forall s, exists q, sum_of b p p q /\ simulate (p_double F F (phon p)) s = Some (phon q, bump s 0 4 8)) /\
  (snd p = 0 -> fst p <> 0 -> (1 + (1 + 1) : F) <> 0 -> forall r, ~ holds (p_double F F (pwir p)) r) /\
  (snd p = 0 -> forall s, simulate (p_double F F (phon p)) s = None).
Proof.
  intros F b p two O. refine (conj _ (conj _ (conj _ _))).
  - intros Y r. now apply p_double_w.
  - intros Y s. now apply p_double_s.
  - intros Y X T r. now apply p_double_unsat.
  - intros Y s. now apply p_double_s_bad.
Qed.
Print Assumptions C32_double.

(** incomplete addition; [nz] is the optional running product *)
Theorem C32_add : forall (F : Field) (b : F) p q nz, (1 + 1 : F) <> 0 -> on_curve b p -> on_curve b q ->
  let nz' := option_map (fun a => a * (fst q - fst p)) nz in
  (fst p <> fst q -> forall r, holds (p_add_incomplete F F (pwir p) (pwir q) (option_map wir nz)) r <->
     exists s, sum_of b p q s /\ r = (pwir s, option_map wir nz')) /\
  (fst p <> fst q -> forall st, exists s, sum_of b p q s /\
     simulate (p_add_incomplete F F (phon p) (phon q) (option_map hon nz)) st
     = Some (phon s, option_map hon nz', match nz with None => bump st 0 3 6 | Some _ => bump st 0 4 8 end)) /\
  (fst p = fst q -> p <> q -> forall r, ~ holds (p_add_incomplete F F (pwir p) (pwir q) (option_map wir nz)) r) /\
  (fst p = fst q -> forall st, simulate (p_add_incomplete F F (phon p) (phon q) None) st = None).
Proof.
  intros F b p q nz two Op Oq nz'. refine (conj _ (conj _ (conj _ _))).
  - intros D r. now apply p_add_w.
  - intros D st. now apply p_add_s.
  - intros X N r. apply p_add_opposite; auto. intros Y. apply N. destruct p, q. cbn [fst snd] in *. congruence.
  - intros X st. now apply p_add_s_bad.
Qed.
Print Assumptions C32_add.

(** chaining additions through the accumulator: it ends nonzero exactly when it
    started nonzero and no addition met equal x-coordinates *)
Fixpoint add_chain {F : Field} (acc : point F F) (nz : elem F F) (qs : list (point F F)) : G F F (point F F * elem F F) :=
  match qs with
  | [] => GRet (acc, nz)
  | q :: r => gbind (p_add_incomplete F F acc q (Some nz)) (fun t =>
                match snd t with Some nz' => add_chain (fst t) nz' r | None => GErr end)
  end.
(** the partial sums met along a satisfying chain *)
Inductive chain {F : Field} : F * F -> list (F * F) -> bool -> F * F -> Prop :=
| ch_nil p : chain p [] true p
| ch_cons p q qs t ok r l : l * (fst q - fst p) = snd q - snd p ->
    t = (l * l - fst p - fst q, l * (fst p - (l * l - fst p - fst q)) - snd p) ->
    chain t qs ok r -> chain p (q :: qs) (negb (feqb (fst p) (fst q)) && ok) r.
Section S_C32_accumulator.
Variable F : Field.
Add Field FFp32 : (f_theory F).
Theorem C32_accumulator : forall qs (p : F * F) (z : F) r,
  holds (add_chain (pwir p) (wir z) (map pwir qs)) r <->
  exists t ok z', chain p qs ok t /\ r = (pwir t, wir z') /\ (z' <> 0 <-> z <> 0 /\ ok = true) /\
    exists d, z' = z * d /\ (d <> 0 <-> ok = true) /\ (qs = [] -> d = 1) /\
      holds (add_chain (pwir p) (wir 1) (map pwir qs)) (pwir t, wir d).
Proof.
    assert (ST : forall p q (z : F) (qs : list (F * F)) r,
    holds (add_chain (pwir p) (wir z) (pwir q :: map pwir qs)) r <->
    exists l, l * (fst q - fst p) = snd q - snd p /\
      holds (add_chain (pwir (l * l - fst p - fst q, l * (fst p - (l * l - fst p - fst q)) - snd p))
                       (wir (z * (fst q - fst p))) (map pwir qs)) r).
  { intros p q z qs r. cbn [add_chain]. rewrite holds_bind. split.
    - intros (x & Hx & H). change (Some (wir z)) with (nz_w F (Some z)) in Hx. apply p_add_raw in Hx.
      destruct Hx as (l & E & ->). cbn [snd nz_w option_map fst] in H. eauto.
    - intros (l & E & H). eexists. split; [change (Some (wir z)) with (nz_w F (Some z)); apply p_add_raw; exists l; eauto|].
      cbn [snd nz_w option_map fst]. exact H. }
  assert (LIN : forall qs p (z c : F) t z', holds (add_chain (pwir p) (wir z) (map pwir qs)) (pwir t, wir z') ->
    holds (add_chain (pwir p) (wir (c * z)) (map pwir qs)) (pwir t, wir (c * z'))).
  { induction qs as [|q qs IH]; intros p z c t z'; cbn [map].
    - cbn [add_chain holds]. intros H. inversion H. subst. destruct p, t; cbn [fst snd] in *. subst. reflexivity.
    - rewrite !ST. intros (l & E & H). exists l. split; auto. apply (IH _ _ c) in H.
      replace (c * z * (fst q - fst p)) with (c * (z * (fst q - fst p))) by ring. exact H. }
  assert (S1 : forall qs p (z : F) r, holds (add_chain (pwir p) (wir z) (map pwir qs)) r ->
    exists t ok d, chain p qs ok t /\ r = (pwir t, wir (z * d)) /\ (d <> 0 <-> ok = true) /\ (qs = [] -> d = 1) /\
      holds (add_chain (pwir p) (wir 1) (map pwir qs)) (pwir t, wir d)).
  { induction qs as [|q qs IH]; intros p z r; cbn [map].
    - cbn [add_chain holds]. intros <-. exists p, true, 1.
      refine (conj (ch_nil p) (conj _ (conj _ (conj _ _)))).
      + f_equal. f_equal. ring.
      + split; auto. intros _. apply f1_neq_0.
      + auto.
      + reflexivity.
    - rewrite ST. intros (l & E & H). apply IH in H. destruct H as (t & ok & d & C & -> & Hd & _ & Hh).
      exists t, (negb (feqb (fst p) (fst q)) && ok)%bool, ((fst q - fst p) * d).
      refine (conj _ (conj _ (conj _ (conj _ _)))).
      + econstructor; eauto.
      + f_equal. f_equal. ring.
      + destruct (feqb (fst p) (fst q)) eqn:X; cbn [negb andb].
        * apply feqb_true in X. rewrite X. split; [|discriminate]. intros N. exfalso. apply N. ring.
        * apply feqb_false in X. rewrite <- Hd. split.
          -- intros N ->. apply N. ring.
          -- intros N. apply fmul_nonzero; auto. rewrite fsub_eq_0. congruence.
      + discriminate.
      + rewrite ST. exists l. split; auto. apply (LIN _ _ _ (fst q - fst p)) in Hh.
        replace ((fst q - fst p) * 1) with (1 * (fst q - fst p)) in Hh by ring. exact Hh. }
  intros qs p z r. split.
  - intros H. apply S1 in H. destruct H as (t & ok & d & C & -> & Hd & Hn & Hh).
    exists t, ok, (z * d). refine (conj C (conj eq_refl (conj _ _))).
    + rewrite <- Hd. split.
      * intros N. split; intros ->; apply N; ring.
      * intros [N1 N2]. now apply fmul_nonzero.
    + exists d. auto.
  - intros (t & ok & z' & _ & -> & _ & d & -> & _ & _ & Hh). apply (LIN _ _ _ z) in Hh.
    replace (z * 1) with z in Hh by ring. exact Hh.
Qed.
End S_C32_accumulator.
Print Assumptions C32_accumulator.

(** double-and-add is (p + q) + p, and unsatisfiable when the second addition is
    exceptional *)
Theorem C32_double_and_add : forall (F : Field) (b : F) p q, (1 + 1 : F) <> 0 -> on_curve b p -> on_curve b q ->
  fst p <> fst q -> snd p <> 0 ->
  (forall r, holds (p_double_and_add F F (pwir p) (pwir q)) r <->
     exists t s, sum_of b p q t /\ fst p <> fst t /\ sum_of b p t s /\ r = pwir s) /\
  (forall t st, sum_of b p q t -> fst p <> fst t -> exists s, sum_of b p t s /\
     simulate (p_double_and_add F F (phon p) (phon q)) st = Some (phon s, bump st 0 5 10)).
Proof.
  intros F b p q two Op Oq D Y. split.
  - intros r. now apply p_da_w.
  - intros t st T N. now apply p_da_s with (b := b).
Qed.
Print Assumptions C32_double_and_add.

(** the exceptional case of incomplete addition: equal inputs leave the output
    unconstrained up to the slope, and the accumulator becomes 0 *)
Theorem C32_add_equal_undetermined : forall (F : Field) (p : F * F) nz r,
  holds (p_add_incomplete F F (pwir p) (pwir p) (option_map wir nz)) r <-> exists l,
    r = (pwir (l * l - fst p - fst p, l * (fst p - (l * l - fst p - fst p)) - snd p),
         option_map wir (option_map (fun _ => 0) nz)).
Proof. intros F p nz r. apply p_add_same. Qed.
Print Assumptions C32_add_equal_undetermined.

Definition ex_p : F97 * F97 := (l97 1, l97 37).
Definition ex_q : F97 * F97 := (l97 93, l97 72).
Example C32_ex_hyps : on_curve ex_b ex_p /\ on_curve ex_b ex_q /\ fst ex_p <> fst ex_q.
Proof.
  split; [apply gf_ext; vm_compute; reflexivity|]. split; [apply gf_ext; vm_compute; reflexivity|].
  intros H. apply (f_equal v97) in H. vm_compute in H. discriminate.
Qed.
Example C32_ex :
  match simulate (p_add_incomplete F97 F97 (phon ex_p) (phon ex_q) None) (mk_simst 0 0 0) with
  | Some (r, _, s) => v97 (ew _ _ (px _ _ r)) = 52%Z /\ v97 (ew _ _ (py _ _ r)) = 29%Z /\ num_gates s = 3%nat
  | None => False
  end.
Proof. vm_compute. auto. Qed.

(** ** C33 *)
(** [ewir bs]: an endoscalar whose bit wires hold [bs]; [ehon n v]: the honest one *)
Theorem C33_lift : forall (F : Field) (zeta : F) n v, Nat.even n = true ->
  let bits := map (nbit v) (seq 0 n) in
  lift_native F zeta n v = lift_sum zeta (n / 2) (nbit v) /\
  (forall r, holds (en_lift F F 1 zeta false (ewir F bits)) r <-> r = wir (lift_native F zeta n v)) /\
  (forall s, simulate (en_lift F F 1 zeta true (ehon F n v)) s
             = Some (hon (lift_native F zeta n v), bump s 0 (n / 2) (2 * (n / 2)))).
Proof.
  intros F zeta n v Ev bits.
  assert (L : lift_bits F zeta bits ((zeta + 1) + (zeta + 1)) = lift_native F zeta n v).
  { rewrite lift_native_sum, <- lift_bits_lift_sum. unfold bits. do 3 f_equal.
    apply Nat.even_spec in Ev. destruct Ev as (k & ->). rewrite (Nat.mul_comm 2 k), Nat.div_mul by lia. lia. }
  refine (conj _ (conj _ _)).
  - apply lift_native_sum.
  - intros r. rewrite en_lift_w, L. reflexivity.
  - intros s. rewrite en_lift_s. fold bits. now rewrite L.
Qed.
Print Assumptions C33_lift.

Theorem C33_alloc : forall (F : Field) n,
  (forall r, holds (en_alloc F F n None) r <-> exists bs, length bs = n /\ r = ewir F bs) /\
  (forall v s, simulate (en_alloc F F n (Some v)) s = Some (ehon F n v, bump s 0 n (2 * n))).
Proof. intros F n. split; [apply en_alloc_w|apply en_alloc_s]. Qed.
Print Assumptions C33_alloc.

Section F2.
Variable F : Field.
Add Field FFp33 : (f_theory F).
Lemma fnat2 : fnat 2 = (1 + 1 : F).
Proof. cbn [fnat]. ring. Qed.
End F2.

(** scaling a non-identity point gives the multiple by the lifted scalar: for every
    bit pattern no exceptional case occurs, provided the scalar field has
    characteristic at least (3 2^(n/2))^2 and lambda is a primitive cube root of 1 *)
Theorem C33_scale : forall (F Fs : Field) (b zeta : F) (lambda : Fs) (E : CurveGroup F Fs b zeta lambda) n v (P : E) p,
  (1 + 1 : F) <> 0 -> lambda * lambda + lambda + 1 = 0 -> Nat.even n = true ->
  (forall m, (0 < m < (3 * 2 ^ (n / 2)) * (3 * 2 ^ (n / 2)))%nat -> fnat m <> (0 : Fs)) ->
  P <> m0 -> cg_aff _ _ _ _ _ E P = Some p ->
  exists s, cg_aff _ _ _ _ _ E (mscale (lift_native Fs lambda n v) P) = Some s /\
    (forall r, holds (en_group_scale F F zeta (ewir F (map (nbit v) (seq 0 n))) (pwir p)) r <-> r = pwir s) /\
    (forall st, simulate (en_group_scale F F zeta (ehon F n v) (phon p)) st
                = Some (phon s, bump st 0 (7 + 7 * (n / 2)) (14 + 14 * (n / 2)))).
Proof.
  intros F Fs b zeta lambda E n v P p two lam Ev ch NP A.
  assert (twoS : (1 + 1 : Fs) <> 0).
  { rewrite <- (fnat2 Fs). apply ch.
    assert (1 <= 2 ^ (n / 2))%nat by (apply Nat.neq_0_lt_0, Nat.pow_nonzero; lia). nia. }
  destruct (group_scale_ok F Fs b zeta lambda E two twoS lam (map (nbit v) (seq 0 n)) P p NP A) as (s & S & Hh & Hs).
  - rewrite map_length, seq_length. exact ch.
  - exists s. rewrite map_length, seq_length in Hs. refine (conj _ (conj _ _)).
    + rewrite <- S. do 2 f_equal. rewrite lift_native_sum, <- lift_bits_lift_sum. do 3 f_equal.
      apply Nat.even_spec in Ev. destruct Ev as (k & ->). rewrite (Nat.mul_comm 2 k), Nat.div_mul by lia. lia.
    + intros r. unfold en_group_scale. rewrite en_bools_w. apply Hh.
    + intros st. unfold en_group_scale. rewrite en_bools_s. rewrite <- (map_map (nbit v) bhon). apply Hs.
Qed.
Print Assumptions C33_scale.

(** the hypotheses hold for the order-103 group over F97 with 2-bit endoscalars,
    and the scaling is non-trivial there *)
Example C33_ex_hyps : (1 + 1 : F97) <> 0 /\ ex_lambda * ex_lambda + ex_lambda + 1 = 0 /\
  (forall m, (0 < m < (3 * 2 ^ (2 / 2)) * (3 * 2 ^ (2 / 2)))%nat -> fnat m <> (0 : F103)) /\
  cg_aff _ _ _ _ _ ex_curve (l103 1 : F103) = Some ex_p.
Proof.
  split; [exact two97|]. split; [apply gf_ext; vm_compute; reflexivity|]. split.
  - assert (T : forallb (fun m => negb (feqb (fnat m) (0 : F103))) (seq 1 40) = true) by (vm_compute; reflexivity).
    intros m Hm H. rewrite forallb_forall in T. specialize (T m). rewrite H, feqb_refl in T.
    assert (In m (seq 1 40)) by (apply in_seq; cbn in Hm; lia). apply T in H0. discriminate.
  - vm_compute. reflexivity.
Qed.
Example C33_ex :
  match simulate (en_group_scale F97 F97 ex_zeta (ehon F97 2 3%N) (phon ex_p)) (mk_simst 0 0 0) with
  | Some (r, s) => Some (v97 (ew _ _ (px _ _ r)), v97 (ew _ _ (py _ _ r)))
      = option_map (fun q => (v97 (fst q), v97 (snd q))) (ex_aff (lift_native F103 ex_lambda 2 3%N))
  | None => False
  end.
Proof. vm_compute. reflexivity. Qed.

(** extraction: bit i must witness that a + i (bit 1) or gen (a + i) (bit 0) is a
    square; with a non-square gen the bits are determined when no a + i is 0 *)
Theorem C33_extract : forall (F : Field) (gen : F) fsqrt n (a : F),
  (forall r, holds (en_extract F F 1 n gen fsqrt false (wir a)) r <->
     exists bs, length bs = n /\ r = ewir F bs /\
       forall i, (i < n)%nat -> square (if nth i bs false then a + fnat i else gen * (a + fnat i))) /\
  (~ square gen -> (forall i, (i < n)%nat -> a + fnat i <> 0) ->
   forall bs bs', holds (en_extract F F 1 n gen fsqrt false (wir a)) (ewir F bs) ->
     holds (en_extract F F 1 n gen fsqrt false (wir a)) (ewir F bs') -> bs = bs').
Proof.
  intros F gen fsqrt n a.
  assert (inj : forall bs bs', ewir F bs = ewir F bs' -> bs = bs').
  { intros bs bs' H. inversion H as [[H1]]. clear H. revert bs' H1. induction bs as [|b bs IH]; intros [|b' bs'] H; try discriminate; auto.
    cbn in H. inversion H as [[H1 H2]]. f_equal; auto. destruct b, b'; auto; cbn in H1.
    - exfalso. now apply (f1_neq_0 F).
    - exfalso. now apply (f1_neq_0 F). }
  split.
  - intros r. rewrite extract_w. unfold bit_ok. firstorder.
  - intros NS N bs bs' H H'. apply extract_w in H, H'. destruct H as (c & L & B & E), H' as (c' & L' & B' & E').
    apply inj in E, E'. subst c c'. apply (nth_ext bs bs' false false); [congruence|]. intros i Hi. rewrite L in Hi.
    eapply (bit_unique F gen a i); eauto.
Qed.
Print Assumptions C33_extract.

Theorem C33_extract_complete : forall (F : Field) (gen : F) fsqrt n (a : F) s,
  (forall v r, fsqrt v = Some r -> r * r = v) -> (forall v, fsqrt v = None -> ~ square v) ->
  (forall v, square v \/ square (gen * v)) ->
  exists v, N.lt v (2 ^ N.of_nat n) /\ (forall i, (i < n)%nat -> nbit v i = true <-> square (a + fnat i)) /\
    simulate (en_extract F F 1 n gen fsqrt true (hon a)) s = Some (ehon F n v, bump s 0 (3 * n) (6 * n)).
Proof. intros F gen fsqrt n a s H1 H2 H3. now apply extract_s. Qed.
Print Assumptions C33_extract_complete.

(** without the nonzero side condition the extracted bits are not unique: for
    a = 0 bit 0 may be 0 or 1 *)
Theorem C33_extract_unique_refuted : exists (gen a : F97) bs bs', ~ square gen /\ bs <> bs' /\
  holds (en_extract F97 F97 1 1 gen (fun _ => None) false (wir a)) (ewir F97 bs) /\
  holds (en_extract F97 F97 1 1 gen (fun _ => None) false (wir a)) (ewir F97 bs').
Proof.
  exists (l97 5), 0, [true], [false]. split; [|split; [|split]].
  - intros (s & H). apply (f_equal v97) in H.
    assert (T : forallb (fun k => negb (Z.eqb (v97 (l97 (Z.of_nat k) * l97 (Z.of_nat k))) (v97 (l97 5)))) (seq 0 97) = true)
      by (vm_compute; reflexivity).
    rewrite forallb_forall in T. specialize (T (Z.to_nat (v97 s))).
    pose proof (val_range 97 s) as R. rewrite Z2Nat.id in T by (unfold v97; lia).
    replace (l97 (v97 s)) with s in T.
    + rewrite H, Z.eqb_refl in T. assert (K : In (Z.to_nat (v97 s)) (seq 0 97)) by (apply in_seq; unfold v97; lia).
      apply T in K. discriminate.
    + symmetry. apply gf_ext. unfold l97. rewrite val_mk. apply Z.mod_small. exact R.
  - discriminate.
  - apply extract_w. exists [true]. repeat split. intros i Hi. assert (i = 0%nat) as -> by lia.
    exists 0. apply gf_ext. vm_compute. reflexivity.
  - apply extract_w. exists [false]. repeat split. intros i Hi. assert (i = 0%nat) as -> by lia.
    exists 0. apply gf_ext. vm_compute. reflexivity.
Qed.
Print Assumptions C33_extract_unique_refuted.

(** ** C13 *)
(** the routine, executed or predicted, yields the native t(x,z) (n = 2^k); its
    constraints are unsatisfiable for a zero input and the prediction fails there *)
Theorem C13_execute : forall (F : Field) k (x z : F),
  (forall r, holds (g_txz_execute F F 1 k (wir x) (wir z) None) r <->
     x <> 0 /\ z <> 0 /\ exists t, t_xz k x z = Some t /\ r = wir t) /\
  (x <> 0 -> z <> 0 -> forall s, exists t, t_xz k x z = Some t /\
     simulate (g_txz_execute F F 1 k (hon x) (hon z) (Some (finv x, finv z))) s
     = Some (hon t, bump s 0 (6 * k + 10) (12 * k + 20))) /\
  (forall xi zi s, x * xi <> 1 \/ z * zi <> 1 ->
     simulate (g_txz_execute F F 1 k (hon x) (hon z) (Some (xi, zi))) s = None).
Proof.
  intros F k x z. refine (conj _ (conj _ _)).
  - intros r. rewrite execute_w. rewrite t_xz_ok. split.
    + intros (Nx & Nz & ->). refine (conj Nx (conj Nz _)). eauto.
    + intros (Nx & Nz & t & E & ->). inversion E. auto.
  - intros Nx Nz s. rewrite t_xz_ok. eexists. split; [reflexivity|]. now apply execute_s.
  - intros xi zi s. apply execute_s_bad.
Qed.
Print Assumptions C13_execute.

Theorem C13_predict : forall (F : Field) k (x z : F) s,
  (x <> 0 -> z <> 0 -> exists t, t_xz k x z = Some t /\
     simulate (g_txz_predict F F k (hon x) (hon z)) s = Some (hon t, Some (finv x, finv z), bump s 1 0 0)) /\
  (x = 0 \/ z = 0 -> simulate (g_txz_predict F F k (hon x) (hon z)) s = None).
Proof.
  intros F k x z s. rewrite predict_s. split.
  - intros Nx Nz. rewrite t_xz_ok. rewrite (proj2 (feqb_false F _ _) Nx), (proj2 (feqb_false F _ _) Nz).
    eexists. split; reflexivity.
  - intros [->| ->]; rewrite feqb_refl; cbn [orb]; [reflexivity|]. now rewrite orb_true_r.
Qed.
Print Assumptions C13_predict.

Example C13_ex :
  match simulate (g_txz_execute F97 F97 f1 2 (hon (l97 3)) (hon (l97 5)) (Some (finv (l97 3), finv (l97 5)))) (mk_simst 0 0 0),
        t_xz 2 (l97 3) (l97 5) with
  | Some (e, s), Some t => v97 (ew _ _ e) = v97 t /\ num_gates s = 22%nat /\ v97 t <> 0%Z
  | _, _ => False
  end.
Proof. vm_compute. repeat split; auto. discriminate. Qed.

(** ** C40 *)
(** success of the simulator = every emitted event is satisfied; the counters grow
    by the numbers of emitted allocations, gates and constraints *)
Theorem C40_exact : forall (F : Field) (A : Type) (p : G F F A) s a s',
  simulate p s = Some (a, s') <->
  exists evs, emits p = Some (a, evs) /\ Forall ev_ok evs /\
    num_allocations s' = (num_allocations s + length (filter is_alloc evs))%nat /\
    num_gates s' = (num_gates s + length (filter is_gate evs))%nat /\
    num_constraints s' = (num_constraints s + length (filter is_lin evs))%nat.
Proof.
  intros F A p s a s'. rewrite sim_emits. split.
  - intros (evs & E & Fo & ->). exists evs. auto.
  - intros (evs & E & Fo & H1 & H2 & H3). exists evs. refine (conj E (conj Fo _)).
    unfold tally, bump, nev. rewrite <- H1, <- H2, <- H3. now destruct s'.
Qed.
Print Assumptions C40_exact.

(** an accepted execution gives a satisfying assignment with the same result *)
Theorem C40_satisfying : forall (F : Field) (A : Type) (p : G F F A) s a s',
  simulate p s = Some (a, s') -> holds p a.
Proof. intros F A p. apply sim_holds. Qed.
Print Assumptions C40_satisfying.

Example C40_ex :
  let p := fun c => gbind (GGate (Some (l97 2, l97 3, c, l97 0)) (fun a b c d => GRet (a, c)))
                          (fun t => gbind (g_enforce F97 F97 [LAdd (fst t); LAdd (fst t); LAdd (fst t); LSub (snd t)]) (fun _ => GRet (snd t))) in
  simulate (p (l97 6)) (mk_simst 0 0 0) = Some (l97 6, mk_simst 0 1 1) /\
  simulate (p (l97 7)) (mk_simst 0 0 0) = None.
Proof. split; reflexivity. Qed.
