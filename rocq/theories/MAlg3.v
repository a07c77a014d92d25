(** More ways classes override the parts of Optimizer. *)
From Verif Require Import Prelude Fl MCore MHelp MAlg MAlg2.

Section With.
Context {A X : Type}.
(** An initialization that first does what [al]'s does and then [m]. *)
Definition with_init (al : @algo A X) (m : M A X unit) : algo :=
  mkAlgo (al_pop_size al) (al_epoch al) (al_sort al) (al_gea al) (al_ga al) (al_init_vars al) (al_init al ;;; m)
         (al_before_main al) (al_evolve al).
End With.
