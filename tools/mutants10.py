M = []
def m(name, file, definition, old, new, claim, **k): M.append(dict(name=name, file=file + '.v', **{'def': definition}, old=old, new=new, claim=claim, **k))
m('pp12','Model_PipelinePod','pl_phi','pod_phi pl_own pl_wv pl_data longtime','pod_phi pl_own pl_wv pl_data (longtime && ~~ longtime)','C159 the modes use the fluctuation')
S='Model_PipelineCoef'
m('cc1',S,'columns','List.nth (i * k + j)%N l zero','List.nth (j * m + i)%N l zero','C160 the saved modes are read by columns')
m('cc2',S,'cl_wv','List.nth (tagnat.sig2 x) (cl_w (cl_at (tagnat.sig1 x))) 0','1','C160 the stored weights are used')
m('cc3',S,'cl_data','(List.nth t (cl_rows (cl_at (tagnat.sig1 x))) nil) 0','(List.nth t.+1 (cl_rows (cl_at (tagnat.sig1 x))) nil) 0','C160 coefficients of every snapshot')
m('cc4',S,'cl_Phi','(List.nth j (cl_phi (cl_at (tagnat.sig1 x))) nil) 0','(List.nth (rev_ord j) (cl_phi (cl_at (tagnat.sig1 x))) nil) 0','C160 the order of the modes')
m('cc5',S,'cl_coeffs','Nd (cons p (cons nt nil))','Nd (cons nt (cons p nil))','C160 the shape of coeffs.npy')
m('cc6',S,'cl_modes','Nd (List.app (cl_shape (cl_at r)) (cons p nil))','Nd (cons p (cl_shape (cl_at r)))','C160 the shape of modes_r.npy')
m('cc7b',S,'cl_ltm','(fun i => lt_mean cl_own cl_data r 0 i)','(fun i => nt%:R * lt_mean cl_own cl_data r 0 i)','C160 ltm.npy holds the mean, not the sum')
m('cc8',S,'cl_file','if par then concat_axis ax ps else','if par then concat_axis 0 ps else','C160 pieces are put together along the distributed axis')
m('cc9',S,'load_modes','do a\' <- distribute_dimension a ax cm;','do a\' <- distribute_dimension a ax None;','C160 every process keeps its part of the modes')
m('cc10',S,'load_modes','do a\' <- distribute_dimension a ax cm;','do a\' <- distribute_dimension a 0 cm;','C160 modes are cut along the axis of the data')
m('cc11',S,'load_modes','| None => Err UnboundLocalError','| None => Ok nil','C160 a selected frequency without file',)
m('cc12',S,'coef_rank','do w <- distribute_dimension (rf_weights fo) ax cm;','do w <- distribute_dimension (rf_weights fo) ax None;','C160 weights are cut with the data')
m('cc13',S,'coef_rank','(rf_xdim fo + 2)%N','(rf_xdim fo + 1)%N','C160 one variable without a variable axis')
m('cc14',S,'coef_rank','Base_List.window (t * xsize)%N xsize (flat d)','Base_List.window t xsize (flat d)','C160 snapshots are consecutive')
m('cc15',S,'coef_rank','(n_freq_r s) (freq_list s) (rf_nm fo);','(n_freq_r s) (List.rev (freq_list s)) (rf_nm fo);','C160 the order of the frequencies')
m('cc16',S,'coef_rank','do x <- distribute_data data cm;','do x <- distribute_data data None;','C160 every process keeps its part of the data')
m('cc17',S,'coef_array','Nat.mul (Z.to_nat (n_freq_r s)) (rf_nm fo) in','Nat.mul (length (freq_list s)).+1 (rf_nm fo) in','C160 the number of coefficients')
m('cc18',S,'coef_array','let par := if np is Some _ then true else false in','let par := false in','C160 the pieces of all processes are saved')
m('cc19',S,'coef_array','let ax := snd (List.hd (cl_none, 0%N) ls) in','let ax := 0%N in','C160 max_axis is the distributed axis')
m('cc20',S,'coef_array','select_freqs (rf_freq fo) (rf_nfreq fo) T_lb T_ub freq_idx;','select_freqs (rf_freq fo) (rf_nfreq fo) T_ub T_lb freq_idx;','C160 the bounds of the selection')
W='Prop_Workflow'
m('wf1',W,'folder_of_fit','(n_freq c) (n_modes_save c)','(n_freq c) (n_blocks c)','C161 the number of saved modes is stored')
m('wf2',W,'folder_of_fit','(weights_of 1 user xs nv)) (fun f','(weights_of 1 NoWeights xs nv)) (fun f','C161 the weights of the fit are stored')
m('wf3',W,'folder_of_fit','(fun f => List.nth_error files f)','(fun f => List.nth_error files f.+1)','C161 every frequency has its own file')
m('wf4',W,'folder_of_fit','Folder (length xs) nv (get','Folder (length xs).+1 nv (get','C161 the stored number of space dimensions')
R='Model_RecFile'
m('wr1',R,'rec_op','(nth g (flat mean) zero)) ts)','zero) ts)','C161 the mean is added back')
m('wr2',R,'column','nth (j * nt + t) l zero','nth (t * p + j) l zero','C161 coefficients are read by columns')
m('wr3',R,'move_last','nth (g * m + k) (flat a) zero','nth (k * prod sp + g) (flat a) zero','C161 time comes first in the reconstruction')
P='Model_PodCoef'
m('pw1',P,'pod_coef_rank','do a <- distribute_dimension (pf_modes fo) ax cm;','do a <- distribute_dimension (pf_modes fo) ax None;','C162 every process keeps its part of the modes')
m('pw2',P,'pod_coef_rank','do a <- distribute_dimension (pf_modes fo) ax cm;','do a <- distribute_dimension (pf_modes fo) 0 cm;','C162 modes are cut along the axis of the data')
m('pw3',P,'pod_coef_rank','do w <- distribute_dimension (pf_weights fo) ax cm;','do w <- distribute_dimension (pf_weights fo) ax None;','C162 weights are cut with the data')
m('pw4',P,'pod_coef_rank','(pf_xdim fo + 2)%N','(pf_xdim fo + 1)%N','C162 one variable without a variable axis')
m('pw5',P,'pod_coef_rank','Base_List.window (t * xsize)%N xsize (flat d)','Base_List.window t xsize (flat d)','C162 snapshots are consecutive')
m('pw6',P,'pod_coef_rank','(columns 0 xsize (pf_nm fo) (flat a))','(columns 0 (pf_nm fo) xsize (flat a))','C162 the order of the mode file')
m('pw7',P,'pl_coeffs','Nd (cons p (cons nt nil))','Nd (cons nt (cons p nil))','C162 the shape of coeffs.npy')
m('pw8',P,'pod_coef_array','let par := if np is Some _ then true else false in','let par := false in','C162 the pieces of all processes are saved')
m('pw9',P,'pod_coef_array','snd (List.hd (cl_none C, 0%N) ls) in','0%N in','C162 max_axis is the distributed axis')
m('pw10',P,'pod_coef_rank','do x <- distribute_data data cm;','do x <- distribute_data data None;','C162 every process keeps its part of the data')
m('pw11',P,'pf_nm','List.last (Model_Parallel.shape (pf_modes fo)) 0%N','List.hd 0%N (Model_Parallel.shape (pf_modes fo))','C162 the number of modes is the last length')
Q='Model_Pod'
m('pw12',Q,'lt_mean_pod','(\\sum_t data t (own i)) / nt%:R','(\\sum_t data t (own i)) / nt.+1%:R','C162 the mean of the data is subtracted')
m('pw13',Q,'pod_coeffs','(\\matrix_(t, i) (data t (own (r := r) i) - lt_mean_pod i))^T','(\\matrix_(t, i) data t (own (r := r) i))^T','C162 the fluctuation is projected')
w=W.replace('Prop_Workflow','Prop_PodWorkflow')
m('pw14',w,'folder_of_pod_fit','(weights_of 1 user xs 1)) modes','(List.rev (List.tl (weights_of 1 user xs 1)))) modes','C162 the stored weights have the shape of a snapshot')
m('pw15',w,'folder_of_pod_fit','PodFolder xdim 1 (Nd','PodFolder xdim 2 (Nd','C162 the stored number of variables')
