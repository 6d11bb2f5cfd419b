(* Base lemmas with cheap arithmetic automation: lia does not unfold div/mod here,
   dlia does. *)
From Verif Require Export Base BaseLemmas.
From Coq Require Export ZifyBool ZifyNat.
Ltac Zify.zify_post_hook ::= idtac.
Ltac dlia := Z.div_mod_to_equations; lia.
Ltac inv H := inversion H; subst; clear H.
