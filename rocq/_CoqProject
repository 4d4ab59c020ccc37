-Q theories Verif
theories/AccuracyLin_Proofs.v
theories/Accuracy_Model.v
theories/Accuracy_Proofs.v
theories/Accuracy_Spec.v
theories/AprioriLevels_Proofs.v
theories/AprioriRound_Model.v
theories/AprioriRound_Proofs.v
theories/AprioriRules_Proofs.v
theories/AprioriUse_Proofs.v
theories/AprioriUse_Spec.v
theories/Apriori_Model.v
theories/Apriori_Proofs.v
theories/Apriori_Spec.v
theories/Argsort_Model.v
theories/Argsort_Proofs.v
theories/Base.v
theories/Bounded_Model.v
theories/Bounded_Proofs.v
theories/Bounded_Spec.v
theories/Brute_Model.v
theories/Brute_Proofs.v
theories/Chol_Proofs.v
theories/ColsLbfgs_Proofs.v
theories/ColsLin_Proofs.v
theories/ColsMore_Proofs.v
theories/ColsTree_Proofs.v
theories/Cols_Proofs.v
theories/Cols_Spec.v
theories/CombPos_Proofs.v
theories/Comb_Proofs.v
theories/CommonMisc_Proofs.v
theories/Common_Model.v
theories/Common_Spec.v
theories/Copies_Proofs.v
theories/Copies_Spec.v
theories/DProb_Cases.v
theories/DProb_Model.v
theories/DProb_Proofs.v
theories/DProb_Spec.v
theories/DecompPca_Proofs.v
theories/Decomp_Model.v
theories/Decomp_Proofs.v
theories/Decomp_Spec.v
theories/Descent_Proofs.v
theories/Descent_Spec.v
theories/Det_Proofs.v
theories/Det_Spec.v
theories/Double_Model.v
theories/Double_Proofs.v
theories/Double_Spec.v
theories/Gain_Proofs.v
theories/Gain_Spec.v
theories/GmmEm_Proofs.v
theories/GmmRun_Proofs.v
theories/Gmm_Model.v
theories/Gmm_Proofs.v
theories/Gmm_Spec.v
theories/HashTree_Model.v
theories/HashTree_Proofs.v
theories/HashTree_Spec.v
theories/Impurity_Model.v
theories/Impurity_Proofs.v
theories/Impurity_Spec.v
theories/KDBuild_Proofs.v
theories/KDHom_Proofs.v
theories/KDQuery_Proofs.v
theories/KDReal_Proofs.v
theories/KDTree_Model.v
theories/KDTree_Spec.v
theories/KMeansPP_Proofs.v
theories/KMeans_Model.v
theories/KMeans_Proofs.v
theories/KMeans_Spec.v
theories/Knn_Model.v
theories/LbfgsRun_Proofs.v
theories/LbfgsTotal_Proofs.v
theories/Lbfgs_Model.v
theories/Lbfgs_Proofs.v
theories/Lbfgs_Spec.v
theories/LinSolve_Proofs.v
theories/Linalg_Model.v
theories/Linalg_Proofs.v
theories/Linalg_Spec.v
theories/LineSearch_Proofs.v
theories/LineSearch_Spec.v
theories/Linear_Model.v
theories/Linear_Proofs.v
theories/Linear_Spec.v
theories/Load_Model.v
theories/Load_Proofs.v
theories/Load_Spec.v
theories/LossHinge_Proofs.v
theories/LossSoftmax_Proofs.v
theories/Loss_Model.v
theories/Loss_Proofs.v
theories/Loss_Spec.v
theories/Lu_Proofs.v
theories/MathFun_Model.v
theories/MathFun_Proofs.v
theories/Metric_Proofs.v
theories/Minibatch_Proofs.v
theories/Minibatch_Spec.v
theories/NB_Model.v
theories/NB_Proofs.v
theories/NB_Spec.v
theories/NbrObjects_Model.v
theories/Objects_Model.v
theories/OptimRun_Proofs.v
theories/OptimSteps_Proofs.v
theories/Optim_Model.v
theories/Optim_Proofs.v
theories/Optim_Spec.v
theories/Penalty_Proofs.v
theories/Penalty_Spec.v
theories/Perceptron_Proofs.v
theories/Properties_Accuracy.v
theories/Properties_AccuracyLin.v
theories/Properties_Apriori.v
theories/Properties_AprioriRound.v
theories/Properties_AprioriUse.v
theories/Properties_Bounded.v
theories/Properties_Brute.v
theories/Properties_Cols.v
theories/Properties_Common.v
theories/Properties_Copies.v
theories/Properties_CopiesApriori.v
theories/Properties_DProb.v
theories/Properties_Decomp.v
theories/Properties_Descent.v
theories/Properties_Double.v
theories/Properties_Gain.v
theories/Properties_Gmm.v
theories/Properties_HashTree.v
theories/Properties_KDTree.v
theories/Properties_KMeans.v
theories/Properties_Knn.v
theories/Properties_Lbfgs.v
theories/Properties_Linalg.v
theories/Properties_LineSearch.v
theories/Properties_Linear.v
theories/Properties_Load.v
theories/Properties_Loss.v
theories/Properties_MathFun.v
theories/Properties_Metric.v
theories/Properties_Minibatch.v
theories/Properties_Misc.v
theories/Properties_NB.v
theories/Properties_NbrObjects.v
theories/Properties_Objects.v
theories/Properties_Optim.v
theories/Properties_Penalty.v
theories/Properties_Random.v
theories/Properties_Round.v
theories/Properties_RoundMore.v
theories/Properties_RowOrder.v
theories/Properties_RowOrderKD.v
theories/Properties_Scd.v
theories/Properties_Solvers.v
theories/Properties_Spectral.v
theories/Properties_Split.v
theories/Properties_Stats.v
theories/Properties_Thresholds.v
theories/Properties_Tight.v
theories/Properties_Travel.v
theories/Properties_Tree.v
theories/Properties_TreeFit.v
theories/Properties_Units.v
theories/Properties_UnitsKD.v
theories/Properties_UnitsMono.v
theories/Qr_Proofs.v
theories/RDR_Proofs.v
theories/Random_Model.v
theories/Random_Proofs.v
theories/Random_Spec.v
theories/RoundMore_Proofs.v
theories/Round_Model.v
theories/Round_Proofs.v
theories/Round_Spec.v
theories/RowOrderKD_Proofs.v
theories/RowOrderMore_Proofs.v
theories/RowOrder_Proofs.v
theories/RowOrder_Spec.v
theories/RowSort_Proofs.v
theories/Scd_Proofs.v
theories/Scd_Spec.v
theories/Shuffle_Model.v
theories/Shuffle_Proofs.v
theories/Solvers_Proofs.v
theories/Solvers_Spec.v
theories/Sorting.v
theories/Spectral_Model.v
theories/Spectral_Proofs.v
theories/Spectral_Spec.v
theories/Split_Model.v
theories/Split_Proofs.v
theories/Stats_Model.v
theories/Stats_Proofs.v
theories/Stats_Spec.v
theories/Travel_Proofs.v
theories/Travel_Spec.v
theories/TreeFit_Proofs.v
theories/TreeFit_Spec.v
theories/TreeReal_Proofs.v
theories/Tree_Model.v
theories/Tree_Proofs.v
theories/Tree_Spec.v
theories/UnitsCase_Proofs.v
theories/UnitsLabels_Proofs.v
theories/UnitsLinear_Proofs.v
theories/UnitsMono_Proofs.v
theories/UnitsMore_Proofs.v
theories/UnitsNB_Proofs.v
theories/Units_Proofs.v
theories/Units_Spec.v
theories/Vec.v
theories/Weights_Proofs.v
