(** Several natural gradient steps on the parameter of a conjugate model, always
    on the same data, each with its own learning rate: the loop of
    optimizers.py:20-31 (init_step, step) around objectives.py:176-190 and
    parameters.py:134-141, as the notebooks and the training scripts write it. *)
From Coq Require Import Reals List.
From Verif Require Import Prelude Vec Dist_Model NW_Model Ev_Model.
Import ListNotations.
Local Open Scope R_scope.

Definition cat_trains (rates : list R) (prior post : list R) (rows : list (list R)) : list R :=
  fold_left (fun q r => cat_train r prior q rows) rates post.

Definition diag_trains (rates : list R) (prior post : ng_par) (rows : list (list R)) : ng_par :=
  fold_left (fun q r => diag_train r prior q rows) rates post.

Definition iso_trains (rates : list R) (prior post : ing_par) (rows : list (list R)) : ing_par :=
  fold_left (fun q r => iso_train r prior q rows) rates post.

(** Normal with full covariance, normal.py:160-199; the matrix operations may fail *)
Definition full_trains (rates : list R) (prior post : nw_par) (stats : list R) : result nw_par :=
  foldM (fun q r => nw_update r prior q stats) rates post.
