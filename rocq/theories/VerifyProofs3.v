(** The recursion circuits write a fixed number of outputs. *)
From Coq Require Import List Arith NArith Bool Lia.
From Verif Require Import FieldDef ArithModel GadgetModel SpongeModel FoldModel PcdModel RecModel CircModel CompileModel CompileProofs2 RecStageModel.
Import ListNotations.
Local Open Scope nat_scope.

Section Leaves.
  Context {F : Field} {W : Type}.
  (** every result a program can return has [Q] *)
  Fixpoint leaves {A : Type} (Q : A -> Prop) (p : G F W A) : Prop :=
    match p with
    | GRet a => Q a
    | GErr => True
    | GGate _ k => forall a b c d, leaves Q (k a b c d)
    | GAlloc _ k => forall a, leaves Q (k a)
    | GAdd _ k => forall a, leaves Q (k a)
    | GEnf _ k => leaves Q k
    end.
  Lemma leaves_bind {A B} (Q : B -> Prop) (f : A -> G F W B) : forall p, leaves (fun a => leaves Q (f a)) p -> leaves Q (gbind p f).
  Proof. induction p; cbn [leaves gbind]; auto. Qed.
  Lemma leaves_all {A} (Q : A -> Prop) : (forall a, Q a) -> forall p : G F W A, leaves Q p.
  Proof. intros H. induction p; cbn [leaves]; auto. Qed.
  Lemma leaves_tail {A B} (Q : B -> Prop) (f : A -> G F W B) p : (forall a, leaves Q (f a)) -> leaves Q (gbind p f).
  Proof. intros H. apply leaves_bind, leaves_all, H. Qed.
  Lemma leaves_imp {A} (Q Q' : A -> Prop) : (forall a, Q a -> Q' a) -> forall p : G F W A, leaves Q p -> leaves Q' p.
  Proof. intros H. induction p; cbn [leaves]; auto. Qed.
End Leaves.
Lemma leaves_compile {F : Field} {A} (Q : A -> Prop) : forall (p : G F wref A) n a, leaves Q p -> snd (compile p n) = Some a -> Q a.
Proof.
  induction p as [x| |w k IH|w k IH|lc k IH|lc k IH]; intros n a L E; cbn [compile snd leaves] in *.
  - congruence.
  - discriminate.
  - destruct (match w with Some t => t | None => _ end) as [[[? ?] ?] ?]. cbn [snd] in E. eapply IH; eauto.
  - eapply IH; eauto.
  - eapply IH; eauto.
  - eapply IH; eauto.
Qed.

Section Outputs.
  Variables (F : Field) (W : Type) (one : W) (cb : F).
  Lemma take_len (b : ubuilder F W) : forall fs, leaves (fun o => length o = list_sum (map uwidth fs)) (take_all F W one cb b fs).
  Proof.
    induction fs as [|[f|f] fs IH]; cbn [take_all map list_sum fold_right]; [reflexivity|..]; apply leaves_tail; intros v; apply leaves_bind;
      (eapply leaves_imp; [|exact IH]); intros t E; cbn [leaves length pt_write app uwidth]; rewrite E; reflexivity.
  Qed.
  Lemma no_suffix_len (b : ubuilder F W) : leaves (fun o => length (fst o) = unified_wires) (finish_no_suffix F W one cb b).
  Proof.
    unfold finish_no_suffix. apply leaves_bind. eapply leaves_imp; [|apply take_len]. intros o E. destruct (ub_inst b); [|exact E].
    match goal with |- context [match ?x with Some _ => _ | None => _ end] => destruct x end; exact I || exact E.
  Qed.
  Lemma finish_len wit (b : ubuilder F W) : leaves (fun o => length (fst o) = unified_wires + 1) (finish F W one wit cb b).
  Proof.
    unfold finish. apply leaves_tail. intros z. apply leaves_bind. eapply leaves_imp; [|apply no_suffix_len]. intros o E. cbn [leaves fst]. now rewrite app_length, E.
  Qed.
  Variables (hs M N : nat) (P : pparams F).
  Ltac walk :=
    repeat first
      [ match goal with
        | |- leaves _ (finish _ _ _ _ _ _) => apply finish_len
        | |- leaves _ (gbind (finish_no_suffix _ _ _ _ _) _) => fail 1
        | |- leaves _ GErr => exact I
        | |- leaves _ (gbind _ _) => apply leaves_tail; intro
        | |- leaves _ (match ?x with _ => _ end) => destruct x
        end ].
  Lemma hashes_1_len of_u tag log2 (pre : preamble F W) oe inst :
    leaves (fun o => length (fst o) = unified_wires + length (pi_out F W (pr_left F W pre)) + length (pi_out F W (pr_right F W pre)) + 1)
      (hashes_1 F W one false cb P of_u tag log2 pre oe inst).
  Proof.
    unfold hashes_1. cbv zeta. walk. apply leaves_bind. eapply leaves_imp; [|apply no_suffix_len]. intros uu E.
    apply leaves_tail. intros zz. cbn [leaves fst]. rewrite !app_length, E. cbn [length]. lia.
  Qed.
  Lemma hashes_2_len (oe : outer_error F W) inst : leaves (fun o => length (fst o) = unified_wires + 1) (hashes_2 F W one false cb P oe inst).
  Proof. unfold hashes_2. cbv zeta. walk. Qed.
  Lemma inner_len (pre : preamble F W) oe ie inst : leaves (fun o => length (fst o) = unified_wires + 1) (inner_collapse F W one false cb M pre oe ie inst).
  Proof. unfold inner_collapse. cbv zeta. walk. Qed.
  Lemma outer_len (pre : preamble F W) oe inst : leaves (fun o => length (fst o) = unified_wires + 1) (outer_collapse F W one false cb N pre oe inst).
  Proof. unfold outer_collapse. cbv zeta. walk. Qed.
  Lemma compute_v_len k nbits gen fsqrt zeta omega (pre : preamble F W) q e inst :
    leaves (fun o => length (fst o) = unified_wires + 1) (compute_v F W one false cb k M N nbits gen fsqrt zeta omega pre q e inst).
  Proof. unfold compute_v. cbv zeta. walk. Qed.
End Outputs.

Section Outs.
  Variables (F : Field) (cb : F) (hs M N : nat) (P : pparams F).
  Lemma sprog_len stages (k : staged F) body outs m : sprog stages k = Some (body, outs) ->
    leaves (fun o => length o = m) (k wref WOne (guards_of stages)) -> length outs = m.
  Proof.
    intros S L. destruct (sprog_inv stages k body outs S) as (_ & res & E & -> & _). rewrite map_length. exact (leaves_compile _ _ _ _ L E).
  Qed.
  Lemma fst_leaves {W} (p : G F W (list (elem F W) * option coverage)) m : leaves (fun o => length (fst o) = m) p -> leaves (fun o => length o = m) (fst_out p).
  Proof. intros L. unfold fst_out. apply leaves_bind. exact L. Qed.
  Lemma guards_length v w stages : length (nth 0 (guards_of ((v, w) :: stages)) []) = w.
  Proof. unfold guards_of. cbn [length seq map nth]. now rewrite map_length, seq_length. Qed.
  Lemma slice_len (ws : list wref) i len : i + len <= length ws -> length (slice (F := F) ws i len) = len.
  Proof. intros H. unfold slice. rewrite map_length, firstn_length, skipn_length. lia. Qed.

  Lemma h1_outs of_u tag log2 body outs : sprog (hashes_stages F hs N P) (s_hashes_1 F cb hs N P of_u tag log2) = Some (body, outs) ->
    length outs = unified_wires + hs + hs + 1.
  Proof.
    intros S. apply (sprog_len _ _ _ _ _ S). unfold s_hashes_1. apply fst_leaves.
    eapply leaves_imp; [|apply hashes_1_len]. intros o E. rewrite E. unfold stage_of.
    cbn [load_pre pr_left pr_right load_pin pi_out]. unfold hashes_stages, pre_st, whole.
    rewrite !slice_len; [reflexivity|..]; rewrite guards_length; unfold pre_wires, pin_wires; lia.
  Qed.
  Lemma h2_outs body outs : sprog (hashes_stages F hs N P) (s_hashes_2 F cb N P) = Some (body, outs) -> length outs = unified_wires + 1.
  Proof. intros S. apply (sprog_len _ _ _ _ _ S), fst_leaves, hashes_2_len. Qed.
  Lemma inner_outs body outs : sprog (inner_stages F hs M N P) (s_inner F cb hs M N P) = Some (body, outs) -> length outs = unified_wires + 1.
  Proof. intros S. apply (sprog_len _ _ _ _ _ S), fst_leaves, inner_len. Qed.
  Lemma outer_outs body outs : sprog (hashes_stages F hs N P) (s_outer F cb hs N P) = Some (body, outs) -> length outs = unified_wires + 1.
  Proof. intros S. apply (sprog_len _ _ _ _ _ S), fst_leaves, outer_len. Qed.
  Lemma v_outs k nbits gen fsqrt zeta omega body outs :
    sprog (v_stages hs) (s_compute_v F cb hs M N k nbits gen fsqrt zeta omega) = Some (body, outs) -> length outs = unified_wires + 1.
  Proof. intros S. apply (sprog_len _ _ _ _ _ S), fst_leaves, compute_v_len. Qed.
End Outs.
