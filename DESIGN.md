# Formal model of beer (design and trusted base)

Everything lives in `rocq/theories` (logical prefix `Verif`), Coq 8.16.1.

## Layout

For each area there are up to four files:

* `X_Model.v`  : total Gallina functions transcribing the Python code. Every
  definition cites file and lines in `/repo`, and says what is simplified.
  No proofs except what is needed to define (none).
* `X_Spec.v`   : the independent specification vocabulary (sums over all paths,
  edit scripts, textbook posteriors, reachability, languages ...). It does not
  mention the functions of `X_Model.v`.
* `X_Proofs.v` : lemmas.
* `X_Props.v`  : the property theorems (statement + `exact lemma`), concrete
  `Example`s meeting the hypotheses, and `Print Assumptions`.

A property that the code does *not* satisfy is stated as a `_refuted` theorem
(`exists` concrete input, the claim fails), beside the positive theorem for the
part that does hold (suffix `_partial` when it is a weakening of the claim).

## Modelling conventions

* A Python exception is a value: functions that can raise return
  `result A := Ok a | Err e` (or `option`) and the error branches are covered.
* `float`/`torch` numbers are modelled by exact real numbers `R` of the standard
  library (rounding is NOT modelled). Log-probabilities are extended with
  `-inf`; `NaN` is modelled explicitly where the code can produce it.
  Field-only facts (NormalWishart) are proved over an arbitrary ordered field.
* tensors are lists (vectors) and lists of lists (matrices), shapes are
  hypotheses.
* Python `set`s have no specified iteration order: they are modelled as
  duplicate-free lists and the theorems quantify over every such list.
* `dict`s are association lists with insertion order.
* the random generator, time, the GPU, the file system are environment inputs:
  the theorems quantify over them.
* transcendental functions: `exp`, `ln`, `sqrt` are those of the standard
  library. `lgamma`/`digamma` are defined by Gauss' limit and proved convex,
  not assumed.

## Trusted base

* Coq's kernel (and `coqchk`), the fidelity of the transcription, the
  conventions above.
* Axioms: only those of the standard library's real numbers as listed by
  `Print Assumptions` at the end of each `X_Props.v`
  (`ClassicalDedekindReals.sig_forall_dec`, `sig_not_dec`,
  `FunctionalExtensionality.functional_extensionality_dep`, and for some
  Coquelicot based results `Classical_Prop.classic` / `Epsilon`/choice axioms of
  `Coq.Logic`). Integer/list theorems are closed under the global context.
* Not modelled: floating point rounding and overflow, autograd (except the
  accumulation of `.grad` in `jacobians`), CUDA, pickling, logging, argument
  parsing, parallel execution inside torch.

## What is and is not modelled, file by file

Modelled (the header of each `X_Model.v` gives the lines):

| files of `/repo` | model |
|---|---|
| beer/graph.py | Graph_Model (Graph, arcs, normalize, replace_state, compile), FB_Model (CompiledGraph) |
| beer/dists/*.py | Dist_Model, NW_Model (normal, normalwishart), Gs_Model/Va_Model (forward, samples) |
| beer/models/parameters.py, beer/inference/*.py | Opt_Model, Vt_Model (training steps over the posteriors) |
| beer/models/basemodel.py | MF_Model (module trees, parameters, replacement) |
| beer/models/{modelset,normalset,mixtureset,mixture,hmm,phoneloop}.py | Set_Model, HMM_Model, Pl_Model, Df_Model (default parameters) |
| beer/models/{categorical,categoricalset}.py | SB_Model, HMM_Model; `_lower_bound` and `_optimize_root_sb` of categoricalset.py (an LBFGS loop) are not modelled |
| beer/models/{normal,gamma}.py | Df_Model, Dist_Model, NW_Model |
| beer/models/gsm.py, vae.py | Gs_Model, Hg_Model, Va_Model |
| beer/models/{linearreg,lds}.py | Lr_Model |
| beer/nnet/*.py | Nn_Model (values), Nc_Model (creation over a memory of tensors) |
| beer/utils.py | Ut_Model |
| beer/features.py, cli/dataset.py, cli/subcommands/{dataset,features}/*.py | Fe_Model, Ar_Model, Fp_Model (features/extract.py as a program) |
| beer/cli/subcommands/hmm/*.py | Gb_Model, Pa_Model, Pl_Model, Dec_Model, Opt_Model, Dt_Model, Dl_Model and Db_Model (training by rounds of accumulate and update), Ar_Model |
| beer/cli/subcommands/{shmm,hshmm}/*.py | Sp_Model, In_Model, Hg_Model |
| recipes/aud/utils/*.py, recipes/aud/local/*/*.py | Edit_Model, Map_Model, Bnd_Model, Seg_Model, Tr_Model, Tv_Model, Dec_Model, Gl_Model, Po_Model, La_Model |
| recipes/timit_v2/**/*.py | Edit_Model, Dec_Model, Seg_Model, Al_Model, Tr_Model, Tv_Model, Pa_Model, La_Model, Cf_Model |

Not modelled:

* beer/models/vae-old.py, beer/models/marginalpldaset.py and beer/models/lm.py
  (with the scripts lm-unigram-*.py): nothing in the package imports
  them and they import modules that do not exist any more (`.bayesmodel`,
  `..priors`).
* beer/vbi.py: an older copy of beer/inference/ (modelled in Opt_Model) that the
  package does not export; it calls methods (`accumulate_natural_grad`) that the
  parameters no longer have.
* the shell scripts, the notebooks, `examples/`, `sandbox/`, `docs/`, `tests/`,
  `setup.py`.
* recipes/timit_v2/utils/{gmm-create,vae-hmm-*,dual-vae-hmm-*,nflow-create}.py:
  argument passing to classes that do not exist any more.
* argument parsing (except the choices of a few options), logging, `os.path`.

Simplifications shared by several models:

* random draws and noise are arguments; a random shuffle is any permutation.
* strings are Coq strings (bytes); text files are lists of lines, lines lists of
  tokens; files of a directory come in the order of a list (`glob`), or of any
  list when the order is not specified.
* pickling and `copy.deepcopy` preserve values; where sharing matters (Nc, In,
  Sp, MF models) objects are addresses in an explicit memory.
* `symeig`, `cholesky`, `inverse` are either computed by an algorithm that is
  proved correct (Mat.v) or quantified over with their contract (Ut_Model).
* a Python `set` of arcs or callbacks is a duplicate-free list in any order.
* gradient descent steps of torch optimisers are not modelled: only the
  objective, the statistics and what is (not) differentiated.
* `lgamma`/`digamma` are defined in Lgamma.v by Gauss' limits; Coquelicot is used
  for derivatives and limits, its theorems need no further axioms.

Defects seen while reading that no property states: `Mixture.posteriors` uses a
missing attribute `weights`; `parameters.py.__eq__` compares `other.__class__`
with itself; `mixtureset._default_param` uses an undefined name;
`gsm.new_models` sets `param.pdfvecs`; `shmm mksphoneloop -p` opens the
posteriors with 'wb' before reading them; `hmm-create-graph-and-emissions.py` with one state per unit makes the pdf ids
decrease; `aud_gnu_parallel.sh` calls `beer hmm update` with four positional
arguments (the command takes two), looks for `optim_E.mdl` when resumed although
the loop writes `optim_E.pkl`, and removes `$shuf_utts` instead of `$shuf_uttids`.

## Plan per property

| id | modelled | proof |
|----|----------|-------|
| C01 | `Graph` as record (counter, ordered states, arcs, start, end), all mutators | invariant over op lists |
| C02 | `normalize` loop over states, over any arc order | induction over states |
| C03 | `find_next_pdf_ids` worklist with visited set, fuel + termination measure | invariant; reachability spec |
| C04 | same; sums over epsilon paths | `_refuted` witness (epsilon weight dropped/squared) + `_partial` when following crosses at most one non-emitting state |
| C05 | row normalisation loop | algebra; `_refuted` for rows without self-loop |
| C06 | `replace_state` | path simulation in both directions; `_refuted` for self-loops |
| C07-C09 | forward, backward, posteriors over extended log-probabilities | refinement to sums over all paths |
| C10 | `best_path` with any arg-max | induction (dynamic programming optimality) |
| C11 | metamorphic | from the path-sum characterisation |
| C12-C15 | gather/scatter/reshape index functions | list/matrix algebra; `_refuted` for MixtureSet slices |
| C16 | mixture responsibilities | Gibbs inequality |
| C17,C18 | HMM scale / objective | linear case proof, `_refuted` witnesses |
| C19-C21 | transition update, accumulate | row-sum algebra; `_refuted` single-state phone, transposed bigram |
| C22,C23 | state2phone of both commands | induction on phone unrolling; `_refuted` |
| C24-C26 | dict addition, scale, backward as state machine | monoid up to observation, permutation invariance; `_refuted` for the value |
| C27-C30 | parameter/optimizer state machines | induction over histories |
| C31 | training loop | `_refuted` |
| C32 | zip/padding | list induction |
| C33-C39 | exponential family parameter maps | field algebra, invariants over histories, `_refuted` NormalDiag |
| C40,C41 | Bregman form of KL; Gauss-limit lgamma | convexity through limits |
| C42 | likelihood functions | algebra with ln/exp; `_refuted` where the code is wrong |
| C43,C44 | stick breaking | permutation algebra, telescoping |
| C45-C48 | utils | extended reals, state machine over environment traces |
| C49 | masked network with arbitrary weights | non-interference by induction over layers |
| C50-C53 | features / corpus statistics | real algebra, list algebra |
| C54-C63 | scoring scripts | edit-script minimality, matchings, entropies, run-length |
| C64-C66 | graph building commands | induction over units, languages through C06 |
| C67,C68 | boundary hits, token coding | `_refuted` (greedy pairing; codes reused) |
| C69,C70 | state path to unit path scripts | induction on visits, `_refuted` |
| C71,C77 | missing utterances in decode/posteriors/accumulate | loops with unbound variables, `_refuted` |
| C73 | entropy rate | Gibbs inequality |
| C78,C79 | nested model sets (`mset` trees) | refinement to lists of emissions, induction on trees; `_refuted` for shared parameters |
| C75,C76 | accumulate/update commands | refinement to sums over the corpus |
| C72,C80-C82 | HMM inference modes, training pass, decode, bigram counts | sums over all state paths; `_refuted` index by state, TypeError |
| C83,C84 | parameter enumeration and replacement over module trees | induction on trees; `_refuted` for containers |
| C33-C37, C39-C42, C85-C89 | exponential families: `Dist_Model.v`, `Dist_Spec.v`; proofs in `Lgamma.v` (log-gamma and digamma as limits), `Dist_Proofs.v`, `NG_Proofs.v`, `KL_Proofs.v`, `Llh_Proofs.v`; theorems in `Dist_Props.v` |
| C38, C40-C42, C85, C87, C88, C90 (matrices) | NormalWishart and full covariance Normal: `Mat.v` (inverse by pivoting, Cholesky, positive definiteness), `MatDet.v`, `LMat.v`, `NW_Model.v`, `NW_Spec.v`, `NW_Proofs.v`, `NW_KL.v`, `NW_Llh.v`, `NW_Props.v` |
| C91-C93 | stick-breaking expectations, hyper-prior and set prior | digamma bounds, telescoping; refutation by a re-ordered root |
| C94,C95 | eigenvalue flooring, Hessian approximation | spectral form given the contract of symeig; quadratic forms |
| C49, C96-C98 | arnet.py, problayers.py, residual.py, parse_nnet_element | Nn_* | weights, draws and noise universally quantified; determinant by Laplace expansion |
| C50-C53, C99-C102 | features.py, features/extract.py (per-frame transforms), dataset/create.py, cli/dataset.py | Fe_* | exact reals, durations in samples, DFT by its definition; command line, file reading and lru_cache not modelled |
| C64-C66, C103 | Gb_Model, Gb_Spec, Gb_Lang, Gb_Proofs, Gb_Loop, Gb_Props | mkphones, mkphoneloopgraph, mkdecodegraph, mkaligraph: pdf ids, state order, languages of the graphs |
| C104 | Cl_Spec, Cl_Proofs, Cl_Props | language of the compiled graph versus language of the graph |
| C105-C110, C113 | gsm.py: covariance parameterization, transforms, packing of the real vectors, objective of GSM and GSMSet, parameter views; samples of normaldiag.py and normal.py | Gs_Model, Gs_Spec, Gs_Proofs, Gs_Obj, Gs_Props |
| C111, C112, C114 | vae.py, forward of normaldiag.py and normal.py with broadcasting, mixture priors | Va_Model, Va_Spec, Va_Proofs, Va_Props |
| C115-C119 | default parameters of Normal, NormalSet, Gamma, Categorical, SBCategorical, Mixture (models/*.py create), Gamma model | Df_Model, Df_Spec, Df_Proofs, Df_Props |
| C120-C126 | shmm commands: units, initial statistics, labels, setprior, epochs | Sp_Model, Sp_Proofs, Sp_Props |
| C127-C128 | HierarchicalGSM and the training loops of shmm/hshmm | Hg_Model, Hg_Props |
| C129 | sample_from_normals | Ut_Model, Smp_Props |
| C74 | compare-alignments.py | Al_Model, Al_Spec, Al_Props |
| C130 | mutual-information.py | Al_Model, Al_Spec, Mi_Props |
| C131, C132 | mkphoneloop.py, mkphoneloopbigram.py | Pl_Model, Pl_Props |
| C133, C134 | features/archive.py, hmm/phonelist.py | Ar_Model, Ar_Props |
| C135 | created networks over a memory of tensors | Nc_Model.v, Nc_Props.v |
| C136, C137 | shmm/hshmm init, hshmm train pairing | In_Model.v, In_Props.v |
| C138–C142 | maptrans, timit-norm-trans, prepare_phone_trans, add_prefix, alffa/prepare_transcripts, convert-ali-to-best-path, prepare-spk-labels | Tr_Model, Tr_Props |
| C143 | prepare-decode-graph.py | Tv_Model, Tv_Spec, Tv_Proofs, Tv_Props |
| C144 | hmm-create-graph-and-emissions.py, hmm-pdf-id-mapping.py | Tv_Model, Tv_Spec, Tv_Proofs, Tv_Props |
| C145 | create-decode-graph.py, hmm-create.py, hmm-set-decoding-graph.py | Tv_Model, Tv_Spec, Tv_Proofs, Tv_Props |
| C146 | timit_lang_prep.py, prepare_trans.py | Tv_Model, Tv_Props |
| C147 | features-stats.py | Tv_Model, Tv_Props |
| C148-C150 | google_lr/prepare_transcripts.py | Gl_Model, Gl_Spec, Gl_Proofs, Gl_Props |
| C151 | modelled | Po_Model, Po_Props |
| C152 | modelled | Lr_Model, Lr_Spec, Lr_Props |
| C153 | modelled | Lr_Model, Lr_Spec, Lr_Props |
| C154 | modelled | Lr_Model, Lr_Props |
| C155 | graph.py compile: finite scores, left-to-right graphs (complements C104) | Pa_Spec, Pa_Proofs, Pa_Rank, Pa_Props |
| C156 | hmm/mkaligraph.py, timit_v2 prepare-alignments.py, hmm-align.py, hmm-decode-parallel.py | Pa_Model, Pa_Props |
| C157 | features.py 142-143, 197-199 | Fe_Model, Ft_Props |
| C158 | modelled | Fk_Props.v (model: Fe_Model.v) |
| C159 | modelled | Fp_Model.v, Fp_Props.v |
| C160, C161 | modelled | La_Model.v, La_Props.v |
| C162 | modelled | Cf_Model.v, Cf_Props.v |
| C163 | training step over the posteriors of the parameters | Vt_Model.v, Vt_Spec.v, Vt_Proofs.v, Vt_Props.v |
| C164 | training of a phone-loop: weights, transitions and emissions | Vl_Model.v, Vl_Spec.v, Vl_Proofs.v, Vl_Props.v |
| C165 | modelled | Sk_Model, Sk_Spec, Sk_Proofs, Sk_Props |
| C166 | modelled | Sk_Model, Sk_Spec, Sk_Proofs, Sk_Props |
| C167 | training of a mixture: weights (Dirichlet, stick-breaking, hyper-prior) and components | Mx_Model.v, Mx_Spec.v, Mx_Proofs.v, Mx_Props.v |
| C168 | objective of a mixture with labels | Mx_Model.v, Mx_Spec.v, Mx_Props.v |
| C169 | training of an HMM with the three kinds of inference | Vh_Model.v, Vh_Spec.v, Vh_Proofs.v, Vh_Props.v |
| C170 | objective and update of a single conjugate model | Ev_Model.v, Ev_Spec.v, Ev_Proofs.v, Ev_Props.v |
| C171 | training a phone-loop with any weights | Pw_Model.v, Pw_Spec.v, Pw_Proofs.v, Pw_Props.v |
| C172, C173 | BigramPhoneLoop training with CategoricalSet or SBCategoricalSet | Bg_Model.v, Bg_Spec.v, Bg_Proofs.v, Bg_Props.v |
| C174 | HMM training with the accumulate and update commands | Dt_Model.v, Dt_Spec.v, Dt_Proofs.v, Dt_Props.v |
| C175 | repeated natural gradient steps on one conjugate parameter | Cg_Model.v, Cg_Spec.v, Cg_Proofs.v, Cg_Props.v |
| C176 | phone-loop training with the accumulate and update commands | Dl_Model.v, Dl_Spec.v, Dl_Proofs.v, Dl_Props.v |
| C177 | bigram phone-loop training with the accumulate and update commands | Db_Model.v, Db_Proofs.v, Db_Props.v |
| C178 | modelled: the sequence of commands of aud.sh, topologies of hmm.yml; the emissions are any set of the right size (those of mkphones: C179) | Rp_Model, Rp_Spec, Rp_Graph, Rp_Proofs, Rp_Start, Rp_Props |
| C179 | modelled: create_pdfs and the emissions of mkphones, with the random draws as an argument; the size check of stats @ pdfvecs | Em_Model, Em_Spec, Em_Proofs, Em_Props |
| C180 | values printed by accumulate and update | Lg_Model, Lg_Spec, Lg_Proofs, Lg_Props |
| C181 | the values printed by accumulate and update for bigram loops (with the divergence of the set of weights) | Lb_Model.v, Lb_Props.v |
| C182 | decode: one utterance from the features to the written units, before and after training | De_* |
| C183 | the commands one after the other: dataset create to decode | Ch_Model.v, Ch_Spec.v, Ch_Props.v |
| C184 | training with an utterance without a path: NaN in the posteriors, statistics, parameters and printed value; Na_Model repeats the definitions of Set_Model, HMM_Model, Pw_Model, Bg_Model, Dl_Model and Db_Model over numbers that can be NaN, and C184_numbers proves that they agree | Na_Model, Na_Spec, Na_Proofs, Na_Props |
| C185 | `hmm posteriors`: states and units, logarithm; the list of utterances and the files are not modelled | Pp_Model, Pp_Spec, Pp_Proofs, Pp_Props |
| C186 | the monophone recipe, with transcriptions, and forced alignment; the shell scripts' resampling of files is not modelled | Mo_Model, Mo_Spec, Mo_Props |
| C187 | upper bound and limit of the evidence lower bound of the training of Vt_Model.v | Vt_Model.v, Cv_Spec.v, Cv_Proofs.v, Cv_Props.v |
| C188 | upper bounds and limits of the evidence lower bounds of Pw_Model.v and Bg_Model.v | Cw_Spec.v, Cw_Proofs.v, Cw_Props.v |
| C189 | upper bound and limit of the evidence bound of the training of Mx_Model.v | Mx_Model.v, Cx_Props.v |
| C190 | limit of the bounds of the rounds of Dt_Model.v and Dl_Model.v | Dt_Model.v, Dl_Model.v, Cy_Props.v |
| C191 | limit of the bounds of the chain of commands of Ch_Model.v and Mo_Model.v | Ch_Model.v, Mo_Model.v, Cz_Props.v |
| C192 | gain of the steps of Vt_Model.v and divergences between successive posteriors | Vt_Model.v, Gn_Spec.v, Gn_Proofs.v, Gn_Props.v |
| C193 | split.sh, submit_parallel.sh, parallel.sh, jobarray.qsub as operations on a directory | Jb_Model.v, Jb_Props.v |
| C194 | training loop of aud.sh as a state machine over the output directory, interruptions at any step | Ep_Model.v, Ep_Spec.v, Ep_Proofs.v, Ep_Props.v |
| C195 | recipes with the optimizer state, killed and started again | Rs_Model.v, Rs_Proofs.v, Rs_Props.v |
| C196 | decoding step of the recipe, killed and started again | Ds_Model.v, Ds_Proofs.v, Ds_Props.v |
| C197 | scoring step of the recipe | Ds_Model.v, Ds_Props.v |
| C198 | gain of the steps of Mx_Model.v and divergences between successive posteriors | Mx_Model.v, Gx_Spec.v, Gx_Proofs.v, Gx_Props.v |
| C199 | gain of the steps of Pw_Model.v and divergences between successive posteriors | Pw_Model.v, Gp_Spec.v, Gp_Proofs.v, Gp_Props.v |
| C200 | rounds of the commands, divergences between the models of successive rounds | Dt_Model.v, Dl_Model.v, Gr_Props.v |
| C201 | training loop of the subspace recipes, kills and restarts; one write of a file is atomic, the accumulation is one step, samples are a function of the epoch, same options in all runs | Ss_Model.v, Ss_Spec.v, Ss_Proofs.v, Ss_Props.v |
| C202 | processes of the updates of the languages, any interleaving, shared counter of the optimizer | Rc_Model.v, Rc_Proofs.v, Rc_Props.v |
| C203 | training loop of hsubspace_aud.sh, kills and restarts, .done.acc, cleanup; one write of a file is atomic, the accumulation is one step, one language | Hs_Model.v, Hs_Proofs.v, Hs_Props.v (ideal run in Ss_Spec.v) |
| C204 | posteriors.sh: jobs, temporary directory of the run, archive; kills and restarts with other numbers of jobs | Zp_Model.v, Zp_Proofs.v, Zp_Props.v (split directory of Jb_Model.v) |
| C205 | extract_features.sh: jobs, temporary directory kept between runs, archive written in place; kills and restarts | Xf_Model.v, Xf_Proofs.v, Xf_Props.v (split directory of Jb_Model.v) |
| C206 | extract_features.sh with a list that changes between the runs | Xf_Model.v, Xl_Proofs.v, Xl_Props.v |
