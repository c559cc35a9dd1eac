(** The values a stage polynomial carries, for each stage of the recursion. *)
From Coq Require Import List Arith NArith Bool.
From Verif Require Import FieldDef ArithModel GadgetModel FoldModel PcdModel RecModel RecSpec.
Import ListNotations.
Local Open Scope nat_scope.

Section Write.
  Context {F : Field}.
  Definition pv_write (c : pvals F) : list F := pv_left c ++ pv_right c ++ pv_out c ++ [pv_cid c] ++ u_write (pv_uni c).
  Definition pre_write (l r : pvals F) : list F := pv_write l ++ pv_write r.
  Definition ck_write (c : child_ky F) : list F := [ck_application c; ck_unified c; ck_bridge c].
  Definition oe_write (o : ovals F) : list F :=
    ov_errs o ++ ov_collapsed o ++ ck_write (ov_left o) ++ ck_write (ov_right o) ++ ov_sponge o.
  Definition cq_write (c : cquery F) : list F :=
    map (cq_rx c) rxid_all ++ [cq_a c; cq_b c; cq_child_xy_w c; cq_xy_cid c; cq_wy_x c].
  Definition query_write (q : queryout F) : list F :=
    map (qo_fixed q) icid_all ++ [qo_wxy q] ++ cq_write (qo_left q) ++ cq_write (qo_right q).
  (** the header lengths of a child, the lengths of the error stages *)
  Definition headers_of (hs : nat) (c : pvals F) : Prop := length (pv_left c) = hs /\ length (pv_right c) = hs /\ length (pv_out c) = hs.
  Definition oe_sized (N t : nat) (o : ovals F) : Prop :=
    length (ov_errs o) = num_error_terms N /\ length (ov_collapsed o) = N /\ length (ov_sponge o) = t.
  Definition ie_sized (M N : nat) (ie : list (list F)) : Prop := length ie = N /\ Forall (fun x => length x = num_error_terms M) ie.
End Write.
