M = []
def m(name, file, definition, old, new, claim, **k): M.append(dict(name=name, file=file + '.v', **{'def': definition}, old=old, new=new, claim=claim, **k))
N='Model_Nan'; K='Model_NanCoef'
m('na1',N,'n_t_mean','| Longtime => ndiv (nsum (iota 0 (nt c)) x) (Some (nt c)%:R)','| Longtime => ndiv (nsum (iota 0 (nt c)) (fun t => Some (odflt 0 (x t)))) (Some (nt c)%:R)','C154 a value missing outside the blocks with the long-time mean')
m('na2',N,'n_mean_block','ndiv (nsum (iota 0 (n_dft c)) q) (Some (n_dft c)%:R).','ndiv (nsum (iota 0 (n_dft c)) q) (Some (n_dft c - 1)%:R).','C154 equals the clean result')
m('na3',N,'n_hat','nmul (n_windowed x b k) (Some (omega c ^+ (f * k)))','Some (odflt 0 (nmul (n_windowed x b k) (Some (omega c ^+ (f * k)))))','C154 a value missing in a block')
m('na4',N,'n_local_M','nmul (nconj (n_q f i b)) (nmul (n_q f i b\') (w (own i)))','if w (own i) == Some 0 then Some 0 else nmul (nconj (n_q f i b)) (nmul (n_q f i b\') (w (own i)))','C154 a weight of zero does not mask')
m('na5',N,'finite_M','[forall f : \'I_(n_freq c), [forall b : \'I_(n_blocks c), [forall b\' : \'I_(n_blocks c), isSome (n_M f b b\')]]]','[forall f : \'I_(n_freq c), [forall b : \'I_(n_blocks c), isSome (n_M f b b)]]','C154 (equivalent: a missing value is on the diagonal)')
m('na6',N,'fit_batch','if finite_M then Returned (BatchResult (fun f => eigs_of c f (n_L f)) n_modes) else LinAlgError','Returned (BatchResult (fun f => eigs_of c f (n_L f)) n_modes)','C154 no exception')
m('na7',N,'n_mean_step','ndiv (nadd (nmul (Some ti%:R) (m r i)) (x r i)) (Some ti.+1%:R)','ndiv (nadd (nmul (Some ti%:R) (m r i)) (Some (odflt 0 (x r i)))) (Some ti.+1%:R)','C155 a value missing before the block')
m('na8',N,'n_contrib','nadd (a r f i) (nmul (Some (window c row * dft_entry c row f)) (x r i))','nadd (a r f i) (nmul (Some (window c row)) (x r i))','C155 equals the clean result')
m('na9',N,'n_new','ndiv (n_up i) n_abs.','(if n_abs == Some 0 then Some 0 else ndiv (n_up i) n_abs).','C86 NaN modes of a constant stream')
m('na10',N,'finite_K','[forall j : \'I_k, isSome (n_Ux j)] && isSome n_abs','[forall j : \'I_k, isSome (n_Ux j)]','C155 a missing value raises')
m('na11',N,'fit_stream','ndiv ((B r f).1 i j) (Some (sqrt_w own w i))','nmul ((B r f).1 i j) (Some (sqrt_w own w i)^-1)','C155 modes NaN where the weight is zero')
m('na12',N,'nanvar','if s is [::] then None else','','C154 serial normalisation (a variable without values)')
m('na13',N,'local_stat','nsum s (fun x => let d := nsub x m in nmul d d)','nsum s (fun x => Some (odflt 0 (let d := nsub x m in nmul d d)))','C154 parallel normalisation')
m('na14',N,'op_stat','nadd (nadd (num na va) (num nb vb))','nadd (nadd (num na va) (num na va))','C154 parallel normalisation')
m('na15',N,'n_basis_step','[forall f : \'I_(n_freq c), finite_K (n_weighted h m f) (fun r => (B r f).1)]','(n_freq c == 0)%N || finite_K (n_weighted h m 0) (fun r => (B r 0%N).1)','C155 other frequencies (equivalent for missing values)')
m('na16',N,'n_centred_s','nsub (h r f i) (nsum','nadd (h r f i) (nsum','C155 equals the clean result')
m('na17',N,'n_modes','nmul (n_q f i b) (Some (n_V f b k','nmul (n_q f i b) (Some (n_V f k b','C154 equals the clean result')
m('nc1',K,'c_mean','nsum (enum \'I_nt) (fun t => data t i)','nsum (enum \'I_nt) (fun t => Some (odflt 0 (data t i)))','C156 one missing value spoils every time')
m('nc2',K,'c_inv','if [forall j, [forall k, isSome (c_M j k)]] then','if true then','C156 NaN modes raise')
m('nc3',K,'c_M','nmul (nconj (Phi (own i) j)) (nmul (Some (w (own i) 0)) (Phi (own i) k))','nmul (Phi (own i) j) (nmul (Some (w (own i) 0)) (Phi (own i) k))','C156 equals the clean result')
m('nc4',K,'c_rec','nadd (nsum (enum \'I_p) (fun j => nmul (Phi i j) (a j t))) (c_mean i)','nsum (enum \'I_p) (fun j => nmul (Phi i j) (a j t))','C156 equals the clean result')
m('nc5',K,'c_pad','if (h_pad n_dft <= q)%N then c_cent data t i else Some 0 else Some 0','if (h_pad n_dft < q)%N then c_cent data t i else Some 0 else Some 0','C156 convolution: first snapshot')
m('nc6',K,'pod_fit','if [forall t, [forall s, isSome (p_Q t s)]] then','if [forall t : \'I_nt, (0 < t)%N ==> isSome (p_Q t t)] then','C156 POD: first snapshot')
m('nc7',K,'p_buf','omap (fun x => \'Re x) (data t\' i) else Some 0','Some (\'Re (odflt 0 (data t\' i))) else Some 0','C156 POD: a missing value')
m('nc8',K,'p_mean','(if odd nt then nsum (iota (nt - 1) 1) (fun t => p_buf t i) else Some 0)','(Some 0)','C156 POD mean of an odd record')
m('nc9',K,'p_coeffs','nmul (Phi (own i) j) (c_cent data t (own i))','nmul (Phi (own i) j) (data t (own i))','C156 POD: a value missing at another time')
m('nc10',K,'p_rec','nmul (Phi i j) (p_coeffs j t)','nmul (Phi i j) (Some (odflt 0 (p_coeffs j t)))','C156 POD reconstruction')
m('nc11',K,'c_conv','nmul (nmul (c_blk f i0 i) (Some (w i 0))) (Some (phi f i m)^*)','nmul (nmul (c_blk f i0 i) (Some (w i 0))) (Some (phi f i m))','C156 convolution equals the clean result')
