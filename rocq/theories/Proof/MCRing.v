(** ring / field for mathcomp fields, through the standard library's tactics. *)
From Coq Require Import Ring_theory Field_theory Ring Field.
From mathcomp Require Import all_ssreflect all_algebra.
Set Implicit Arguments.
Unset Strict Implicit.
Unset Printing Implicit Defensive.
Import GRing.Theory.
Local Open Scope ring_scope.

Section T.
Variable F : fieldType.
Definition fadd (x y : F) : F := x + y.
Definition fmul (x y : F) : F := x * y.
Definition fopp (x : F) : F := - x.
Definition fsub (x y : F) : F := x - y.
Definition finv (x : F) : F := x^-1.
Definition fdiv (x y : F) : F := x / y.
Definition f0 : F := 0.
Definition f1 : F := 1.
Lemma faddE x y : x + y = fadd x y. Proof. by []. Qed.
Lemma fmulE x y : x * y = fmul x y. Proof. by []. Qed.
Lemma foppE x : - x = fopp x. Proof. by []. Qed.
Lemma finvE x : x^-1 = finv x. Proof. by []. Qed.
Lemma f0E : (0 : F) = f0. Proof. by []. Qed.
Lemma f1E : (1 : F) = f1. Proof. by []. Qed.
Lemma fnatS n : (n.+1%:R : F) = fadd n%:R f1. Proof. by rewrite -addn1 natrD. Qed.
Lemma fnat0 : (0%:R : F) = f0. Proof. by []. Qed.
Lemma fmulnE (x : F) n : x *+ n = fmul x n%:R. Proof. by rewrite /fmul mulr_natr. Qed.
Lemma fexpE (x : F) n : x ^+ n.+1 = fmul x (x ^+ n). Proof. by rewrite exprS. Qed.
Lemma fexp0 (x : F) : x ^+ 0 = f1. Proof. by []. Qed.

Lemma mc_rth : ring_theory f0 f1 fadd fmul fsub fopp (@eq F).
Proof.
split; rewrite /f0 /f1 /fadd /fmul /fsub /fopp //.
- exact: add0r. - exact: addrC. - exact: addrA. - exact: mul1r. - exact: mulrC.
- exact: mulrA. - exact: mulrDl. - exact: subrr.
Qed.
Lemma mc_fth : field_theory f0 f1 fadd fmul fsub fopp fdiv finv (@eq F).
Proof.
split; [exact: mc_rth | | by [] | ].
- by rewrite /f1 /f0; apply/eqP; apply: oner_neq0.
- by move=> p Hp; rewrite /fmul /finv mulVf //; apply/eqP.
Qed.
End T.
Arguments f0 {F}. Arguments f1 {F}.

Lemma eqF (F : fieldType) (x y : F) : @eq (GRing.Field.sort F) (fadd x f0) y -> x = y.
Proof. by rewrite /fadd /f0 addr0. Qed.
Ltac mc_norm := apply: eqF; rewrite ?fexpE ?fexp0 ?fnatS ?fnat0 ?faddE ?fmulE ?foppE ?finvE ?f0E ?f1E.

Section Test.
Variable F : realFieldType.
Add Field Ff : (@mc_fth F).
Lemma test (x y : F) : (x + y) ^+ 2 - x * x - y * y = 2%:R * x * y.
Proof. mc_norm; ring. Qed.
Lemma test2 (x y : F) : y != 0 -> x / y * y = x.
Proof. move/eqP=> H; mc_norm; field; exact: H. Qed.
End Test.
