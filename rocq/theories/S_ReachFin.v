(** Dice for the finite-width optimizer. *)
From Coq Require Import QArith Reals Qreals List.
Import ListNotations.
From Verif Require Import M_Base M_Opt M_FinWidth M_Prob S_Reach.

(** The acceptance test with probability [prob]; the shuffle of the candidate slices
    (greedy/utils.hpp:82) is [sh], some function that permutes its argument. It takes
    no numbers from the two streams: what it draws is in [sh]. *)
Definition fdice_rand (prob : Z -> Z -> R) (sh : list nat -> list nat) : frand dice :=
  mkFR (dice_rand prob) (fun r l => (sh l, r)).

(** The state of an optimizer with another state of its generator. *)
Definition fset_rng {R} (s : fw_state R) (r : R) : fw_state R :=
  fw_set s (fw_ct s) r (fw_width s) (fw_sl s) (fw_cc s) (fw_hyper s).
