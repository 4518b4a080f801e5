F="LikeModel.v"
def m(i,d,o,n,e,c): return dict(id=f"M{i:03d}",file=F,definition=d,old=o,new=n,edit=e,claim=c)
MUTS=[
 m(35,"Poisson_like (maxlike.py:17)","X k * y k - N k * exp (y k) - gammaln (X k + 1)","X k * y k - exp (y k) - gammaln (X k + 1)","weight N forgotten in the exponential term","C18, C24"),
 m(36,"Poisson_grad (maxlike.py:20)","let delta := X k - N k * exp (y k) in der p k * delta) cells.","let delta := N k * exp (y k) - X k in der p k * delta) cells.","sign of delta","C18"),
 m(37,"Poisson_hess (maxlike.py:26)","let delta := X k - delta2 in\n                 hess p q k * delta - der p k * der q k * delta2) cells.\n\n(** maxlike.py:44","let delta := X k - delta2 in\n                 hess p q k * delta + der p k * der q k * delta2) cells.\n\n(** maxlike.py:44","sign of the outer-product term","C18, C61"),
 m(38,"ZIP_like (maxlike.py:45)","X k * y k + Z k * ln s - N k","X k * y k - Z k * ln s - N k","sign of the zeros term","C24"),
 m(39,"ZIP_grad (maxlike.py:51)","X k - N k * exp_y / (1 + (s - 1) * exp (- exp_y)) in\n                 der p k * delta","X k - N k * exp_y / (1 + (s - 1) * exp (exp_y)) in\n                 der p k * delta","exp(exp_y) instead of exp(-exp_y)","C19"),
 m(40,"ZIP_hess (maxlike.py:58)","N k * t * (1 + t * (s - 1) * exp (- exp_y))","N k * t * (1 - t * (s - 1) * exp (- exp_y))","sign in delta2","C19"),
 m(41,"Logistic_like (maxlike.py:78)","N k * ln (1 + exp (- y k)) + (N k - X k) * y k","N k * ln (1 + exp (y k)) + (N k - X k) * y k","exp(y) instead of exp(-y)","C20, C24"),
 m(42,"Logistic_hess (maxlike.py:91)","pr * (1 - pr) * N k","pr * (1 - pr)","N dropped in delta2","C20"),
 m(43,"NormFinite_hess (maxlike.py:186)","(hess p q k - der p k * der q k / y k) / y k in N k * h","(hess p q k - der p k * der q k) / y k in N k * h","division by y dropped","C22"),
 m(44,"NegBin_grad (maxlike.py:220)","(X k + r * N k) * m / (m + r) in der p k * delta","(X k + r) * m / (m + r) in der p k * delta","N dropped","C23"),
 m(45,"NegBin_hess (maxlike.py:230)","s * s - X k + delta in","s * s + delta in","X dropped in delta2","C23"),
 m(46,"Finite_grad (maxlike.py:134)","N k u * (der p k u / y k u - dz k / z k)","N k u * (der p k u / y k u)","normaliser derivative dropped","C21"),
 m(47,"Finite_hess (maxlike.py:147)","(hz k - dz p k * dz q k / z k) / z k in","(hz k - dz p k * dz p k / z k) / z k in","dz_i used twice","C21"),
 m(48,"Finite_like (maxlike.py:121)","(ln (y k u) - ln (z k))","(ln (y k u))","normalisation dropped","C21, C62"),
 m(49,"objective (maxlike_base.py:103)","fold_left Rminus regs like / N_total","fold_left Rplus regs like / N_total","penalties added","C63"),
 m(50,"NegBin_like (maxlike.py:212)","(X k + r * N k) * ln (r + exp (y k))","(X k + r) * ln (r + exp (y k))","N dropped","C23, C24"),
]
