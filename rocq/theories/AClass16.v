(** The fruit-fly classes: agents whose target or bounds are not those of their position. *)
From Verif Require Import Prelude Fl MCore MHelp MAlg MAlg2 MClass16 SpecCore SpecRun SpecAlg Demo PSelect.
From Flocq Require Import IEEE754.BinarySingleNaN.
Import String.

(** np.linalg.norm of a pair as the rounded square root of the rounded sum of squares. *)
Definition foa_env : env := mkEnv argsort_ins (e_u demo_env) (e_g demo_env) (e_i demo_env)
  (fun name l => if String.eqb name "norm" then Bsqrt mode_NE (nth 0 l fnan * nth 0 l fnan + nth 1 l fnan * nth 1 l fnan)%F else nth 0 l fnan)
  (e_time demo_env) (e_order demo_env).
(** In single mode the returned target is the one of the position before the last transformation (FOA.py:80-83). *)
Theorem C65_OriginalFOA_refuted : exists g s',
  solve foa_env (demo_prob Min sphere true) Single (original_foa foa_env (demo_prob Min sphere true) Single 5 3) None None (st0 tt) = Ok (g, s') /\
  exists t, tgt g = Some t /\ feq (t_fit t) (sphere (sol g)) = false.
Proof.
  assert (T : match solve foa_env (demo_prob Min sphere true) Single (original_foa foa_env (demo_prob Min sphere true) Single 5 3) None None (st0 tt) with
              | Ok (g, _) => match tgt g with Some t => negb (feq (t_fit t) (sphere (sol g))) | None => false end | _ => false end = true) by (vm_compute; reflexivity).
  destruct (solve _ _ _ _ _ _ _) as [[g s']|]; [|discriminate]. exists g, s'. split; [reflexivity|].
  destruct (tgt g) as [t|]; [|discriminate]. exists t. split; [reflexivity|]. destruct (feq _ _); [discriminate|reflexivity].
Qed.
Theorem C65_WhaleFOA_refuted : exists g s',
  solve foa_env (demo_prob Min sphere true) Single (whale_foa foa_env (demo_prob Min sphere true) Single 5 3) None None (st0 tt) = Ok (g, s') /\
  exists t, tgt g = Some t /\ feq (t_fit t) (sphere (sol g)) = false.
Proof.
  assert (T : match solve foa_env (demo_prob Min sphere true) Single (whale_foa foa_env (demo_prob Min sphere true) Single 5 3) None None (st0 tt) with
              | Ok (g, _) => match tgt g with Some t => negb (feq (t_fit t) (sphere (sol g))) | None => false end | _ => false end = true) by (vm_compute; reflexivity).
  destruct (solve _ _ _ _ _ _ _) as [[g s']|]; [|discriminate]. exists g, s'. split; [reflexivity|].
  destruct (tgt g) as [t|]; [|discriminate]. exists t. split; [reflexivity|]. destruct (feq _ _); [discriminate|reflexivity].
Qed.
(** In the parallel modes the position that is evaluated and returned can leave the bounds, here [-5, 5] in two variables:
    generate_empty_agent transforms it after the correction. *)
Theorem C65_OriginalFOA_bounds_refuted : exists g s',
  solve foa_env (demo_prob Max sphere true) Thread (original_foa foa_env (demo_prob Max sphere true) Thread 5 3) None None (st0 tt) = Ok (g, s') /\
  exists j v, nth_error (sol g) j = Some v /\ flt (fZ 5) v = true.
Proof.
  assert (T : match solve foa_env (demo_prob Max sphere true) Thread (original_foa foa_env (demo_prob Max sphere true) Thread 5 3) None None (st0 tt) with
              | Ok (g, _) => existsb (fun v => flt (fZ 5) v) (sol g) | _ => false end = true) by (vm_compute; reflexivity).
  destruct (solve _ _ _ _ _ _ _) as [[g s']|]; [|discriminate]. exists g, s'. split; [reflexivity|].
  apply existsb_exists in T. destruct T as (v & Hv & Hf). apply In_nth_error in Hv. destruct Hv as [j Hj]. exists j, v. auto.
Qed.
Theorem C65_DevFOA_bounds_refuted : exists g s',
  solve foa_env (demo_prob Max sphere true) Thread (dev_foa foa_env (demo_prob Max sphere true) Thread 5 3) None None (st0 tt) = Ok (g, s') /\
  exists j v, nth_error (sol g) j = Some v /\ flt (fZ 5) v = true.
Proof.
  assert (T : match solve foa_env (demo_prob Max sphere true) Thread (dev_foa foa_env (demo_prob Max sphere true) Thread 5 3) None None (st0 tt) with
              | Ok (g, _) => existsb (fun v => flt (fZ 5) v) (sol g) | _ => false end = true) by (vm_compute; reflexivity).
  destruct (solve _ _ _ _ _ _ _) as [[g s']|]; [|discriminate]. exists g, s'. split; [reflexivity|].
  apply existsb_exists in T. destruct T as (v & Hv & Hf). apply In_nth_error in Hv. destruct Hv as [j Hj]. exists j, v. auto.
Qed.

Print Assumptions C65_OriginalFOA_refuted.
Print Assumptions C65_WhaleFOA_refuted.
Print Assumptions C65_OriginalFOA_bounds_refuted.
Print Assumptions C65_DevFOA_bounds_refuted.
