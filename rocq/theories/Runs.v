(** Deterministic gadget programs, with and without witness data at once. *)
From Coq Require Import List Arith Bool Lia Ring Field.
From Verif Require Import FieldDef ArithModel ArithSpec GadgetModel GadgetSpec GadgetProofs.
Import ListNotations.
Open Scope f_scope.

Definition el {F : Field} (wit : bool) (a : F) : elem F F := if wit then hon a else wir a.
Definition bel {F : Field} (wit : bool) (b : bool) : bool_g F := if wit then bhon b else bwir (fe F b).
(** [runs wit p v g c]: without witnesses the constraints of [p] force exactly the
    result [v]; with witnesses the execution is accepted with the result [v],
    [g] gates and [c] constraints (no allocations) *)
Definition runs {F : Field} {A : Type} (wit : bool) (p : G F F A) (v : A) (g c : nat) : Prop :=
  if wit then forall s, simulate p s = Some (v, bump s 0 g c) else forall r, holds p r <-> r = v.

Section Runs.
  Variable F : Field.
  Add Field FFru : (f_theory F).
  Variable wit : bool.
  Lemma runs_bind {A B : Type} (p : G F F A) (f : A -> G F F B) v w g c g' c' :
    runs wit p v g c -> runs wit (f v) w g' c' -> runs wit (gbind p f) w (g + g') (c + c').
  Proof.
    unfold runs. destruct wit; intros H K.
    - intros s. rewrite sim_bind, H, K, bump_bump. reflexivity.
    - intros r. rewrite (holds_det F p v) by exact H. apply K.
  Qed.
  Lemma runs_ret {A : Type} (v : A) : runs wit (GRet v : G F F A) v 0 0.
  Proof. unfold runs. destruct wit; cbn; intros; [now rewrite bump_0|split; auto]. Qed.
  Lemma runs_cost {A : Type} (p : G F F A) v g c g' c' : runs wit p v g c -> g = g' -> c = c' -> runs wit p v g' c'.
  Proof. now intros H -> ->. Qed.
  Lemma runs_val {A : Type} (p : G F F A) v v' g c : runs wit p v g c -> v = v' -> runs wit p v' g c.
  Proof. now intros H ->. Qed.
  Lemma runs_bind0 {A B : Type} (p : G F F A) (f : A -> G F F B) v w g c :
    runs wit p v 0 0 -> runs wit (f v) w g c -> runs wit (gbind p f) w g c.
  Proof. intros H K. exact (runs_bind p f v w 0 0 g c H K). Qed.
  Lemma runs_bindr {A B : Type} (p : G F F A) (f : A -> B) v g c :
    runs wit p v g c -> runs wit (gbind p (fun x => GRet (f x))) (f v) g c.
  Proof.
    intros H. eapply runs_cost; [eapply runs_bind; [exact H|apply runs_ret]|lia|lia].
  Qed.
  Lemma r_add (a b : F) : runs wit (e_add F F (el wit a) (el wit b)) (el wit (a + b)) 0 0.
  Proof. unfold runs, el. destruct wit; intros; [rewrite e_add_s, bump_0; reflexivity|apply e_add_w]. Qed.
  Lemma r_sub (a b : F) : runs wit (e_sub F F (el wit a) (el wit b)) (el wit (a - b)) 0 0.
  Proof. unfold runs, el. destruct wit; intros; [rewrite e_sub_s, bump_0; reflexivity|apply e_sub_w]. Qed.
  Lemma r_mul (a b : F) : runs wit (e_mul F F (el wit a) (el wit b)) (el wit (a * b)) 1 2.
  Proof. unfold runs, el. destruct wit; intros; [apply e_mul_s|apply e_mul_w]. Qed.
  Lemma r_square (a : F) : runs wit (e_square F F (el wit a)) (el wit (a * a)) 1 2.
  Proof. apply r_mul. Qed.
  Lemma r_scale (a : F) k : runs wit (e_scale F F (el wit a) k) (el wit (a * c_value k)) 0 0.
  Proof. unfold runs, el. destruct wit; intros; [rewrite e_scale_s, bump_0; reflexivity|apply e_scale_w]. Qed.
  Lemma r_negate (a : F) : runs wit (e_negate F F (el wit a)) (el wit (- a)) 0 0.
  Proof. unfold runs, el. destruct wit; intros; [rewrite e_negate_s, bump_0; reflexivity|apply e_negate_w]. Qed.
  Lemma r_add_coeff (a b : F) k : runs wit (e_add_coeff F F (el wit a) (el wit b) k) (el wit (a + b * c_value k)) 0 0.
  Proof. unfold runs, el. destruct wit; intros; [rewrite e_add_coeff_s, bump_0; reflexivity|apply e_add_coeff_w]. Qed.
  Lemma r_zero : runs wit (e_zero F F 1 wit) (el wit 0) 0 0.
  Proof. unfold runs, el. destruct wit; intros; [rewrite e_zero_s, bump_0; reflexivity|apply e_zero_w]. Qed.
  Lemma r_constant (a : F) : runs wit (e_constant F F 1 wit a) (el wit a) 0 0.
  Proof. unfold runs, el. destruct wit; intros; [rewrite e_constant_s, bump_0; reflexivity|apply e_constant_w]. Qed.
  Lemma r_one : e_one F F 1 wit = el wit 1.
  Proof. unfold el. destruct wit; reflexivity. Qed.
  Lemma r_multiadd (vs cs : list F) : length vs = length cs ->
    runs wit (e_multiadd F F wit (map (el wit) vs) cs)
         (el wit (lsum (map (fun vc => fst vc * snd vc) (combine vs cs)))) 0 0.
  Proof.
    unfold runs, el. destruct wit; intros L s.
    - rewrite bump_0. now apply e_multiadd_s.
    - now apply e_multiadd_w.
  Qed.
  Lemma r_fold (es : list F) s : runs wit (e_fold F F 1 wit (map (el wit) es) (el wit s))
    (el wit (peval (rev es) s)) (length es - 1) (2 * (length es - 1)).
  Proof. unfold runs, el. destruct wit; intros; [apply e_fold_s|apply e_fold_w]. Qed.
  Lemma r_sum (es : list F) : runs wit (e_sum F F 1 wit (map (el wit) es)) (el wit (lsum es)) 0 0.
  Proof. unfold runs, el. destruct wit; intros; [rewrite bump_0; apply e_sum_s|apply e_sum_w]. Qed.
End Runs.

Lemma nth_firstn_lt {A} (l : list A) n i d : (i < n)%nat -> nth i (firstn n l) d = nth i l d.
Proof. revert n i. induction l as [|a l IH]; intros [|n] [|i] H; cbn; auto; try lia. apply IH. lia. Qed.
Lemma nth_skipn {A} (l : list A) n i d : nth i (skipn n l) d = nth (n + i) l d.
Proof. revert n. induction l as [|a l IH]; intros [|n]; cbn; auto. now destruct i. Qed.
