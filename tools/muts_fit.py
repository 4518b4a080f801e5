MUTS = [
 dict(id="M010", file="FitModel.v", definition="inner (maxlike_base.py:490)", old="if f_ge E g prev_g then ([EvTrial mult nf], Accepted nf ps g)", new="if f_ge E prev_g g then ([EvTrial mult nf], Accepted nf ps g)",
  edit="comparison swapped: accepts a decrease", claim="C06, C09"),
 dict(id="M011", file="FitModel.v", definition="newton_loop (maxlike_base.py:505)", old="| Ok true => (tr0, set_hess (set_params s nps) hess, Ok true)", new="| Ok true => (tr0, set_params s nps, Ok true)",
  edit="flat_hess_ not stored on success", claim="C10"),
 dict(id="M012", file="FitModel.v", definition="newton_loop (maxlike_base.py:498)", old="| Exhausted => (tr0, set_conv s false, Raise ConvergenceError)", new="| Exhausted => (tr0, s, Raise ConvergenceError)",
  edit="converged not reset when the inner loop is exhausted", claim="C08"),
 dict(id="M013", file="FitModel.v", definition="newton_loop (maxlike_base.py:504 moved)", old="| Raise e => (tr0, s, Raise e)\n              | Ok true", new="| Raise e => (tr0, set_params s nps, Raise e)\n              | Ok true",
  edit="params stored before the criterion is evaluated", claim="C05"),
 dict(id="M014", file="FitModel.v", definition="cut_index (maxlike_base.py:428)", old="((- (Z.of_nat c_len + 1)) mod (Z.of_nat n) + 1)%Z", new="((- (Z.of_nat c_len)) mod (Z.of_nat n))%Z",
  edit="(-c_len % n) : naive slice, wrong for c_len = 0", claim="C12, C10"),
 dict(id="M015", file="FitModel.v", definition="newton_loop (maxlike_base.py:477)", old="flat step prev_g 5 (f_one E) in", new="flat step prev_g 6 (f_one E) in",
  edit="six inner trials", claim="C07"),
 dict(id="M016", file="FitModel.v", definition="newton_loop (maxlike_base.py:491)", old="newton_loop verbose tol s k' nf nps in", new="newton_loop verbose tol s k' flat nps in",
  edit="flat_params not updated after an accepted step", claim="C10"),
 dict(id="M017", file="FitModel.v", definition="broyden_loop (maxlike_base.py:544)", old="set_conv (set_hess s1 h) true, Ok true)", new="set_hess s1 h, Ok true)",
  edit="converged not set by Broyden", claim="C08"),
 dict(id="M018", file="FitModel.v", definition="broyden_loop (maxlike_base.py:539)", old="if 0 <? verbose then ([EvTrial (f_one E) nf], s, Raise NameError)", new="if 1 <? verbose then ([EvTrial (f_one E) nf], s, Raise NameError)",
  edit="NameError only for verbose > 1", claim="C17"),
 dict(id="M019", file="FitModel.v", definition="broyden (maxlike_base.py:553-555)", old="| Raise e => (pr ++ tr, set_conv s' false, Raise e)", new="| Raise e => (pr ++ tr, s', Raise e)",
  edit="except clause does not reset converged", claim="C08"),
 dict(id="M020", file="FitModel.v", definition="fit (maxlike_base.py:464)", old="| (k, Ok t) :: r => load_data (set_data s k t) r", new="| (k, Ok t) :: r => load_data s r",
  edit="data keyword ignored", claim="C05 (data attributes)"),
 dict(id="M021", file="FitModel.v", definition="inner (maxlike_base.py:494)", old="flat step prev_g n' (f_mul E mult (f_half E)) in", new="flat step prev_g n' mult in",
  edit="multiplier never halved", claim="C07"),
 dict(id="M022", file="FitModel.v", definition="newton_loop (maxlike_base.py:503)", old="match criterion prev_g g tol with\n              | Raise e => (tr0, s, Raise e)", new="match criterion g prev_g tol with\n              | Raise e => (tr0, s, Raise e)",
  edit="g / prev_g instead of prev_g / g", claim="C09"),
 dict(id="M023", file="FitModel.v", definition="newton_step (maxlike_base.py:424)", old="let! lhess := flat_hess E d ps y der hess in\n  let! step := np_solve E lhess lgrad in", new="let! lhess := flat_hess E d ps y der hess in\n  let! step := np_solve E lhess (rev lgrad) in",
  edit="gradient permuted before the solve", claim="C10"),
 dict(id="M024", file="FitModel.v", definition="broyden_loop (maxlike_base.py:529)", old="let '(tr, s', out) := broyden_loop verbose tol i1 s k' J' ng ngrad nf in", new="let '(tr, s', out) := broyden_loop verbose tol i1 (set_params s nps) k' J' ng ngrad nf in",
  edit="self.params updated at every Broyden iteration", claim="C05"),
]
