(* Order laws of the comparison operators, for exact arithmetic and for binary64. *)
From Coq Require Import List NArith ZArith Bool Arith Lia Reals Lra.
From Flocq Require Import Core IEEE754.BinarySingleNaN.
Require Import Verif.Base Verif.Num Verif.F64 Verif.XReal.
Import ListNotations.

(* The laws the ranking of values needs. *)
Class OrdLaws (T : Type) {NT : Num T} : Prop := {
  ol_lt_nan_l : forall a b, nis_nan a = true -> nltb a b = false;
  ol_lt_nan_r : forall a b, nis_nan b = true -> nltb a b = false;
  ol_irrefl : forall a, nltb a a = false;
  ol_trans : forall a b c, nltb a b = true -> nltb b c = true -> nltb a c = true;
  ol_negtrans : forall a b c, nis_nan b = false ->
      nltb a b = false -> nltb b c = false -> nltb a c = false;
  ol_eq : forall a b, neqb a b = negb (nis_nan a) && negb (nis_nan b) && negb (nltb a b) && negb (nltb b a);
  ol_le : forall a b, nleb a b = nltb a b || neqb a b
}.

Lemma Rltb_true : forall a b, Rltb a b = true <-> (a < b)%R.
Proof. intros. unfold Rltb. destruct (Rlt_dec a b); split; intros; auto; discriminate. Qed.
Lemma Rltb_false : forall a b, Rltb a b = false <-> (b <= a)%R.
Proof. intros. unfold Rltb. destruct (Rlt_dec a b); split; intros; auto; try discriminate; lra. Qed.
Lemma Rleb_true : forall a b, Rleb a b = true <-> (a <= b)%R.
Proof. intros. unfold Rleb. destruct (Rle_dec a b); split; intros; auto; discriminate. Qed.
Lemma Rleb_false : forall a b, Rleb a b = false <-> (b < a)%R.
Proof. intros. unfold Rleb. destruct (Rle_dec a b); split; intros; auto; try discriminate; lra. Qed.
Lemma Reqb_true : forall a b, Reqb a b = true <-> a = b.
Proof. intros. unfold Reqb. destruct (Req_EM_T a b); split; intros; auto; try discriminate; contradiction. Qed.
Lemma Reqb_false : forall a b, Reqb a b = false <-> a <> b.
Proof. intros. unfold Reqb. destruct (Req_EM_T a b); split; intros; auto; try discriminate; contradiction. Qed.

Ltac rcmp :=
  repeat match goal with
  | H : Rltb _ _ = true |- _ => apply Rltb_true in H
  | H : Rltb _ _ = false |- _ => apply Rltb_false in H
  | H : Rleb _ _ = true |- _ => apply Rleb_true in H
  | H : Rleb _ _ = false |- _ => apply Rleb_false in H
  | H : Reqb _ _ = true |- _ => apply Reqb_true in H
  | H : Reqb _ _ = false |- _ => apply Reqb_false in H
  | |- Rltb _ _ = true => apply Rltb_true
  | |- Rltb _ _ = false => apply Rltb_false
  | |- Rleb _ _ = true => apply Rleb_true
  | |- Rleb _ _ = false => apply Rleb_false
  | |- Reqb _ _ = true => apply Reqb_true
  | |- Reqb _ _ = false => apply Reqb_false
  end.

#[global] Instance OrdLaws_xreal : OrdLaws xreal.
Proof.
  split; simpl.
  - intros [|[]|r] [|[]|s]; simpl; auto; discriminate.
  - intros [|[]|r] [|[]|s]; simpl; auto; discriminate.
  - intros [|[]|r]; simpl; auto. rcmp; lra.
  - intros [|[]|r] [|[]|s] [|[]|t]; simpl; auto; try discriminate. intros; rcmp; lra.
  - intros [|[]|r] [|[]|s] [|[]|t]; simpl; auto; try discriminate. intros; rcmp; lra.
  - intros [|[]|r] [|[]|s]; simpl; auto.
    destruct (Rltb r s) eqn:H1; destruct (Rltb s r) eqn:H2; simpl; rcmp; lra.
  - intros [|[]|r] [|[]|s]; simpl; auto.
Qed.

(* binary64 as an extended real *)
Definition f2x (a : f64) : xreal :=
  match a with
  | B754_nan => XNaN
  | B754_infinity s => XInf s
  | _ => XFin (B2R a)
  end.

Lemma Rlt_bool_Rltb : forall a b, Rlt_bool a b = Rltb a b.
Proof. intros. unfold Rltb. destruct (Rlt_bool_spec a b); destruct (Rlt_dec a b); auto; lra. Qed.
Lemma Rle_bool_Rleb : forall a b, Rle_bool a b = Rleb a b.
Proof. intros. unfold Rleb. destruct (Rle_bool_spec a b); destruct (Rle_dec a b); auto; lra. Qed.
Lemma Req_bool_Reqb : forall a b, Req_bool a b = Reqb a b.
Proof. intros. unfold Reqb. destruct (Req_bool_spec a b); destruct (Req_EM_T a b); auto; contradiction. Qed.

Lemma f2x_ltb : forall a b : f64, nltb a b = x_ltb (f2x a) (f2x b).
Proof.
  intros a b. change (nltb a b) with (Bltb a b).
  destruct (is_finite a) eqn:Fa; destruct (is_finite b) eqn:Fb.
  - rewrite Bltb_correct by assumption. rewrite Rlt_bool_Rltb.
    destruct a; destruct b; try discriminate; reflexivity.
  - destruct a as [s| s | | s m e B]; destruct b as [t| t | | t m' e' B']; try discriminate;
      destruct s; try destruct t; reflexivity.
  - destruct a as [s| s | | s m e B]; destruct b as [t| t | | t m' e' B']; try discriminate;
      try destruct s; destruct t; reflexivity.
  - destruct a as [s| s | | s m e B]; destruct b as [t| t | | t m' e' B']; try discriminate;
      try destruct s; try destruct t; reflexivity.
Qed.

Lemma f2x_eqb : forall a b : f64, neqb a b = x_eqb (f2x a) (f2x b).
Proof.
  intros a b. change (neqb a b) with (Beqb a b).
  destruct (is_finite a) eqn:Fa; destruct (is_finite b) eqn:Fb.
  - rewrite Beqb_correct by assumption. rewrite Req_bool_Reqb.
    destruct a; destruct b; try discriminate; reflexivity.
  - destruct a as [s| s | | s m e B]; destruct b as [t| t | | t m' e' B']; try discriminate;
      destruct s; try destruct t; reflexivity.
  - destruct a as [s| s | | s m e B]; destruct b as [t| t | | t m' e' B']; try discriminate;
      try destruct s; destruct t; reflexivity.
  - destruct a as [s| s | | s m e B]; destruct b as [t| t | | t m' e' B']; try discriminate;
      try destruct s; try destruct t; reflexivity.
Qed.

Lemma f2x_leb : forall a b : f64, nleb a b = x_leb (f2x a) (f2x b).
Proof.
  intros a b. change (nleb a b) with (Bleb a b). unfold x_leb.
  destruct (is_finite a) eqn:Fa; destruct (is_finite b) eqn:Fb.
  - rewrite Bleb_correct by assumption. rewrite Rle_bool_Rleb.
    assert (H : forall r s, Rleb r s = Rltb r s || Reqb r s).
    { intros r s. destruct (Rltb r s) eqn:H1; destruct (Reqb r s) eqn:H2; simpl; rcmp; lra. }
    rewrite H.
    destruct a; destruct b; try discriminate; reflexivity.
  - destruct a as [s| s | | s m e B]; destruct b as [t| t | | t m' e' B']; try discriminate;
      destruct s; try destruct t; reflexivity.
  - destruct a as [s| s | | s m e B]; destruct b as [t| t | | t m' e' B']; try discriminate;
      try destruct s; destruct t; reflexivity.
  - destruct a as [s| s | | s m e B]; destruct b as [t| t | | t m' e' B']; try discriminate;
      try destruct s; try destruct t; reflexivity.
Qed.

Lemma f2x_nan : forall a : f64, nis_nan a = x_is_nan (f2x a).
Proof. destruct a; reflexivity. Qed.

#[global] Instance OrdLaws_f64 : OrdLaws f64.
Proof.
  split.
  - intros a b. rewrite f2x_ltb, f2x_nan. apply (@ol_lt_nan_l xreal _ OrdLaws_xreal).
  - intros a b. rewrite f2x_ltb, f2x_nan. apply (@ol_lt_nan_r xreal _ OrdLaws_xreal).
  - intros a. rewrite f2x_ltb. apply (@ol_irrefl xreal _ OrdLaws_xreal).
  - intros a b c. rewrite !f2x_ltb. apply (@ol_trans xreal _ OrdLaws_xreal).
  - intros a b c. rewrite !f2x_ltb, f2x_nan. apply (@ol_negtrans xreal _ OrdLaws_xreal).
  - intros a b. rewrite !f2x_ltb, !f2x_nan, f2x_eqb. apply (@ol_eq xreal _ OrdLaws_xreal).
  - intros a b. rewrite f2x_ltb, f2x_leb, f2x_eqb. reflexivity.
Qed.
