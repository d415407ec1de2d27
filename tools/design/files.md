| `Util` | `util.py` | C01-C08 |
| `Cons` | `constraints/constraints.py` | C09-C20, C54 |
| `FE` (also `FEGram`, `FEMx`, `FELink`) | `fe.py`, `Q/Q.py` | C21-C31, C56 |
| `FEPair` | `Q/Q.py` | C55 |
| `FESii` | `fe.py` (variances of errors, leverages) | C77-C79 |
| `FECtl` | `fecontrol.py`, `Q/Q.py` (columns, clusters) | C32-C34 |
| `FEReg` | `fecontrol.py` (regression, corrections) | C57-C59 |
| `Attr` (also `AttrComb`) | `attrition.py`, `attrition_utils` | C35, C36, C60-C62 |
| `BLM` (also `BLMEM`) | `blm.py` (sorting, normalisation, EM of stayers) | C37-C40, C63 |
| `BLMRun` (also `BLMReal`) | `blm.py` (phases, selection, proportions) | C41-C43, C45 |
| `BLMFit` | `blm.py` (EM of movers) | C43, C44, C64 |
| `BLMGen` | `blm.py` (constraints with controls) | C65 |
| `BLMCtl` | `blm.py` (`fit_movers` with controls) | C97 |
| `Boot` | `blm.py` (bootstrap, decomposition) | C43, C66, C85 |
| `Sim` | `simblm.py` | C46, C47, C83, C84 |
| `Bs` | `borovickovashimer.py` | C48, C73-C76 |
| `Ichol` | `preconditioners/ichol.py` | C49 |
| `Sorkin` | `sorkin.py` | C50 |
| `Cli` | `command_line.py` | C51 |
| `Dyn` | `blm_dynamic.py` (`_var_stayers`) | C52 |
| `DBLM` | `blm_dynamic.py` (estimator without controls) | C86-C91 |
| `DBoot` | `blm_dynamic.py` (simulation, bootstrap, decomposition) | C92, C93 |
| `DBootCtl` | `blm_dynamic.py` (`_simulate_types_wages` with control variables) | C111 |
| `FEFit` (and `FEFitFlow`) | `fe.py` (`fit`: which attributes each step needs; `_collect_res`, `_save_res`) | C114, C115 |
| `Ev` | `diagnostics/plot_extendedeventstudy.py` | C116 |
| `SBoot` | `blm.py`, `blm_dynamic.py`: bootstrap with method='standard' | C117 |
| `Plot` | `blm.py`, `blm_dynamic.py`: plots of the bootstrap and of likelihoods | C118, C119 |
| `Upd` | `blm.py`: the options update_a, update_s, update_pk1 (on the models of `BLMFit` and `BLMRun`) | C120 |
| `Cnt` | `blm.py`, `blm_dynamic.py`: the counts NNm and NNs and their use in the plot of type proportions | C121 |
| `PropPlot` | `blm.py`: the bootstrap plot of type proportions | C122 |
| `Avail` | `blm.py`, `blm_dynamic.py`: calls that store and use the counts of movers and stayers | C123 |
| `MC` | `montecarlo.py` (`_monte_carlo_interior`, `monte_carlo`, differences and range of `hist`) | C112, C113 |
| `DRun` | `blm_dynamic.py` (`fit_movers_cstr_uncstr`, starting values, `DynamicBLMEstimator.fit`) | C95 |
| `DCons` | `blm_dynamic.py` (user constraints for movers and stayers) | C98 |
| `SBs` | `simbs.py` (SimBS) | C99, C100 |
| `Prec` | `preconditioners/jacobi.py`, `preconditioners/vcycle.py` and their use in `fe.py` and `fecontrol.py` | C101-C103 |
| `SimCtl` | `simblm.py` (control variables) | C109, C110 |
| `SimD` | `simdblm.py` | C104-C108 |
| `DCtl` | `blm_dynamic.py` (control variables: keys and shapes) | C96 |
| `Conn` | `blm.py`, `blm_dynamic.py` (`compute_connectedness_measure`) | C94 |
| `Inter`, `Fixb`, `Lin` | `blm_interacted.py` | C53, C80, C81, C82 |
| `Cre`, `CrePost` | `cre.py` | C67-C72 |
