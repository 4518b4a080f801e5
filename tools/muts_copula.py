MUTS = [
 dict(id="M069", file="CopulaModel.v", definition="normcum", old="let x := cumsum l in map (fun a => a / last x 0) x.", new="let x := cumsum l in map (fun a => a / hd 0 x) x.", edit="divide by the first element of the cumulative sum instead of the last", claim="C40"),
 dict(id="M070", file="CopulaModel.v", definition="joint", old="  let F := map (fun row => 0 :: row) F in\n", new="  let F := map (fun row => 1 :: row) F in\n", edit="np.insert(F, 0, 1, -1)", claim="C40"),
 dict(id="M071", file="CopulaModel.v", definition="joint", old="let F := map (fun u => map (fun v => C u v) y) x in", new="let F := map (fun u => map (fun v => C v u) y) x in", edit="swapped arguments of the copula function (harmless for symmetric families: expected to be equivalent)", claim="none for symmetric families"),
 dict(id="M072", file="CopulaModel.v", definition="clayton", old="Rpower (Rpower x (- a) + Rpower y (- a) - 1) (-1 / a).", new="Rpower (Rpower x (- a) + Rpower y (- a)) (-1 / a).", edit="forgot the -1", claim="C40"),
 dict(id="M073", file="CopulaModel.v", definition="gumbel", old="exp (- npow (npow (- ln x) a + npow (- ln y) a) (1 / a)).", new="exp (- npow (npow (- ln x) a + npow (- ln y) a) a).", edit="outer exponent a instead of 1/a", claim="C40, C41"),
 dict(id="M074", file="CopulaModel.v", definition="frank", old="(exp (- a) - 1)).", new="(exp a - 1)).", edit="sign of a in the denominator", claim="C40"),
 dict(id="M075", file="CopulaModel.v", definition="amh_new", old="if Rle_dec (-1) rho then Ok rho", new="if Rle_dec (-3) rho then Ok rho", edit="lower bound of the assert relaxed to -3", claim="C40_refused"),
 dict(id="M076", file="CopulaModel.v", definition="amh", old="x * y / (1 - rho * (1 - x) * (1 - y)).", new="x * y / (1 + rho * (1 - x) * (1 - y)).", edit="sign of rho flipped in the denominator (still a copula for |rho|<=1, but AMH(1) becomes nan-free and different)", claim="C66", tightened=["C66_cdf (added: C40-C42 alone do not see this edit)"]),
 dict(id="M077", file="CopulaModel.v", definition="gumbel_new", old="Rle_dec 1 rho", new="Rlt_dec 0 rho", edit="assert rho > 0 instead of rho >= 1", claim="C41 (not 2-increasing), C40_refused"),
]
