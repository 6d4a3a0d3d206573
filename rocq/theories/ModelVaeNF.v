(** The normalizing flow example, examples/normalizing_flows/vae_nf.py, for one image. Values are
    reals. Simplification: the relu layers are an argument, the functions that give the mean and
    log standard deviation of z and the logits of x. *)
From Coq Require Import List Reals.
From Verif Require Import ModelShape ModelTensor ModelDist ModelFlow ModelSBN.
Import ListNotations.
Local Open Scope R_scope.

(** Node "z" of build_q_net and its query, vae_nf.py:32-40 and 68: the sample made from standard normal draws
    [eps] and its log probability. [mls] has the mean and logstd of every entry. *)
Definition q_draw (mls : list (R * R)) (eps : list R) : list R * R :=
  let z := map (fun e => normal_sample (fst e) (fst (snd e)) (exp (snd (snd e)))) (combine eps mls) in
  (z, sumR (map (fun e => normal_lp (fst e) (fst (snd e)) (snd (snd e))) (combine z mls))).
(** The two calls of planar_normalizing_flow, vae_nf.py:70-73, on all rows. *)
Definition nf_posterior (ps1 ps2 : list planar_params) (samples log_probs : tensor R) : option (tensor R * tensor R) :=
  obind (planar_normalizing_flow true ps1 samples log_probs) (fun zl => planar_normalizing_flow true ps2 (fst zl) (snd zl)).
(** The same on one row, from the draws. *)
Definition nf_row (ps1 ps2 : list planar_params) (zl : list R * R) : option (list R * R) :=
  obind (planar_row ps1 zl) (planar_row ps2).
Definition nf_draw (ps1 ps2 : list planar_params) (mls : list (R * R)) (eps : list R) : option (list R * R) :=
  nf_row ps1 ps2 (q_draw mls eps).
(** log_joint of build_gen, vae_nf.py:20-28: z has mean 0 and std 1. *)
Definition gen_log_joint (logits : list R -> list R) (x z : list R) : R :=
  sumR (map (fun t => normal_lp t 0 0) z) + log_bits (logits z) x.
(** The lower bound of one image and particle, vae_nf.py:75-78; also the log weight that is_loglikelihood
    (83-85) averages. *)
Definition nf_bound (ps1 ps2 : list planar_params) (mls : list (R * R)) (logits : list R -> list R) (x eps : list R) : option R :=
  option_map (fun zl => gen_log_joint logits x (fst zl) - snd zl) (nf_draw ps1 ps2 mls eps).
