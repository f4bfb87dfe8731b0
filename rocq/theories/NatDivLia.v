(** Make [lia] understand division and remainder on nat by numerals. *)
From Coq Require Export Lia ZArith ZifyNat ZifyClasses.
#[global] Instance Op_nat_div : BinOp Nat.div := { TBOp := Z.div ; TBOpInj := Nat2Z.inj_div }.
#[global] Instance Op_nat_mod : BinOp Nat.modulo := { TBOp := Z.modulo ; TBOpInj := Nat2Z.inj_mod }.
Add Zify BinOp Op_nat_div.
Add Zify BinOp Op_nat_mod.
Ltac Zify.zify_post_hook ::= Z.div_mod_to_equations.
