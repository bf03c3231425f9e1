(** * Model: joint_mutual_information_recursion (k2/python/k2/mutual_information.py)

    Log-probabilities are exact reals or -inf; [lo] is torch.finfo(dtype).min. *)
From Coq Require Import ZArith List Lia Bool Reals.
From Verif Require Import Base OpsModel RnntModel LogReal MutualInfoModel.
Import ListNotations.
Open Scope Z_scope.

(** lines 370-375: torch.stack(px, dim=0).sum(dim=0), every term having n x m matrices *)
Definition sum_terms (B n m : Z) (terms : list (list (list (list (option R))))) : option (list (list (list (option R)))) :=
  tabM B (fun b => tabM2 n m (fun s t =>
    vs <- mapM (fun x => rd3 x b s t) terms;; Some (fold_right ladd lzero vs))).

(** lines 408-410: clamp(min=torch.finfo(dtype).min) *)
Definition clamp_min (lo : R) (v : option R) : R := match v with Some r => Rmax r lo | None => lo end.

(** lines 301-311 _inner_product of a gradient and one utterance of a clamped term *)
Definition inner_product (n m : Z) (lo : R) (g : Z -> Z -> option R) (x : list (list (option R))) : option R :=
  rows <- tabM2 n m (fun s t => a <- mget n m g s t;; v <- rd2 x s t;; Some (a * clamp_min lo v)%R);;
  Some (sumf (sumf (fun v => v)) rows).

(** lines 314-423; the result is prods, (N, B).  torch.stack requires equal shapes. *)
Definition joint_mutual_information_recursion (lo : R) (B S T1 T : Z) (px py : list (list (list (list (option R)))))
    (boundary : option (list (Z * Z * Z * Z))) : option (list (list (option R))) :=
  let N := zlen px in
  check ((zlen py =? N) && (0 <? N));;
  check ((T1 =? T) || (T1 =? T + 1));;
  check (forallb (shape3 B S T1) px && forallb (shape3 B (S + 1) T) py);;
  px_tot <- sum_terms B S T1 px;;
  py_tot <- sum_terms B (S + 1) T py;;
  gr <- mutual_information_grads lzero lninf ladd (logadd None) lderiv B S T1 T px_tot py_tot boundary;;
  prods <- tabM2 N B (fun n b =>
    x <- rd2 px n b;; y <- rd2 py n b;; g <- rd gr b;;
    x_prod <- inner_product S T1 lo (g_px (snd g)) x;;
    y_prod <- inner_product (S + 1) T lo (g_py (snd g)) y;;
    Some (x_prod + y_prod)%R);;
  offset <- tabM B (fun b =>
    g <- rd gr b;; col <- tabM N (fun k => rd2 prods k b);;
    Some (ladd (fst g) (Some (- sumf (fun v => v) col)%R)));;
  tabM2 N B (fun n b =>
    p <- rd2 prods n b;;
    if n =? 0 then o <- rd offset b;; Some (ladd (Some p) o) else Some (Some p)).
